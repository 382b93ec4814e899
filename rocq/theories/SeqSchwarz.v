(** * Sequential overlapping Schwarz (dune/istl/overlappingschwarz.hh, ilusubdomainsolver.hh): C55

    Blocks are elements of a ring, as in the other files.  Exceptions thrown by a subdomain solver leave x partly updated in the multiplicative modes;
    the model only records the exception. *)
From Coq Require Import Arith List Lia Bool Sorted ZArith QArith Qcanon.
From Verif Require Import Ring Sums RingInst Outcome Sparse MatVec GsModel Gs Ilu IluSolve Ilun Ildl Precond Adjoint SymPrecond.
Import ListNotations.
Open Scope nat_scope.

Section Model.
  Context {R : ring}.
  Local Open Scope ring_scope_istl.
  Local Notation vec := (list R).
  Local Notation smat := (smat R).

  (** ** Subdomain solvers *)
  (** indexMap of copyToLocalMatrix, ilusubdomainsolver.hh:155-167: global row -> position in the row set *)
  Fixpoint pos (rows : list nat) (j : nat) : option nat :=
    match rows with
    | nil => None
    | r :: t => if r =? j then Some O else option_map S (pos t j)
    end.
  (** rowCreator.insert: the row pattern is a std::set (C03) *)
  Fixpoint set_ins (j : nat) (l : list nat) : list nat :=
    match l with
    | nil => [j]
    | k :: t => if j <? k then j :: l else if j =? k then l else k :: set_ins j t
    end.
  (** the loops over the columns of one row, ilusubdomainsolver.hh:183-192 (pattern) and :207-216 (values, in the order of the columns of A) *)
  Definition local_pattern (rows : list nat) (row : srow R) : list nat :=
    fold_left (fun s (e : nat * R) => match pos rows (fst e) with Some k => set_ins k s | None => s end) row nil.
  Definition local_values (rows : list nat) (row : srow R) : vec :=
    flat_map (fun e : nat * R => match pos rows (fst e) with Some _ => [snd e] | None => nil end) row.
  (** copyToLocalMatrix, ilusubdomainsolver.hh:149-219 (without the returned bandwidth, which only the ILU(n) solver uses) *)
  Fixpoint local_rows (A : smat) (rows todo : list nat) : outcome smat :=
    match todo with
    | nil => Ok nil
    | r :: t => match nth_error A r with
                | None => UB
                | Some row => obind (local_rows A rows t) (fun L => Ok (combine (local_pattern rows row) (local_values rows row) :: L))
                end
    end.
  Definition copyToLocalMatrix (A : smat) (rows : list nat) : outcome smat := local_rows A rows rows.

  (** A subdomain solver class: setSubMatrix, and apply(lhs, rhs) on arrays of length maxlength, giving the new arrays.
      [whole]: relaxResult of its OverlappingAssigner multiplies the whole array (DynamicMatrixSubdomainSolver) instead of the current entry. *)
  Record subsolver := mkSub { loc : Type; set_sub : smat -> list nat -> outcome loc; l_apply : loc -> vec -> vec -> outcome (vec * vec); whole : bool }.

  (** ** SeqOverlappingSchwarz *)
  Variable inv : R -> option R.
  (** ILU0SubdomainSolver, ilusubdomainsolver.hh:93-96, 221-226 *)
  Definition ilu0_solver : subsolver :=
    mkSub smat (fun A rows => obind (copyToLocalMatrix A rows) (fun L => blockILU0Decomposition inv L))
          (fun F lhs rhs => if (length F <=? length lhs) && (length F <=? length rhs) then obind (ilu_backsolve F lhs rhs) (fun z => Ok (z, rhs)) else UB) false.
  (** DynamicMatrixSubdomainSolver, overlappingschwarz.hh:143-213: the dense submatrix (:183-209) and A.solve of dune-common, which is [dsolve];
      lhs and rhs are cut to the size of the submatrix and grown back to their capacity, the new entries being zero (:162-174). *)
  Definition dense_sub (A : smat) (rows : list nat) : list (list R) := map (fun r => map (fun c => den A r c) rows) rows.
  Variable dsolve : list (list R) -> vec -> outcome vec.
  Definition dynamic_solver : subsolver :=
    mkSub (list (list R)) (fun A rows => if forallb (fun r => r <? length A) rows then Ok (dense_sub A rows) else UB)
          (fun D lhs rhs => if (length D <=? length lhs) && (length D <=? length rhs) then
             obind (dsolve D (firstn (length D) rhs)) (fun z =>
               Ok (z ++ repeat r0 (length lhs - length z), firstn (length D) rhs ++ repeat r0 (length rhs - length D))) else UB) true.

  Variable SD : subsolver.
  (** OverlappingAssigner::operator(), overlappingschwarz.hh:1503-1516 (ILU), :1333-1373 (dense), :1412-1438 (SuperLU/UMFPack): rhs[i] = b - A x at row r *)
  Definition assign1 (A : smat) (b x : vec) (rhs : vec) (i r : nat) : outcome vec :=
    match nth_error A r, nth_error b r with
    | Some row, Some br =>
      if i <? length rhs then Ok (upd rhs i (fold_left (fun s (e : nat * R) => s - snd e * vget x (fst e)) row br)) else UB
    | _, _ => UB
    end.
  (** std::for_each(domain->begin(), domain->end(), assigner): the functor is passed by value, so the counter of the copy starts at 0 *)
  Fixpoint assign_all (A : smat) (b x : vec) (rhs : vec) (i : nat) (d : list nat) : outcome vec :=
    match d with
    | nil => Ok rhs
    | r :: t => obind (assign1 A b x rhs i r) (fun rhs' => assign_all A b x rhs' (S i) t)
    end.
  (** AdditiveAdder::operator(), :1557-1562 with assignResult, :1525-1528, 1378-1385, 1451-1458 *)
  Fixpoint add_all (lhs : vec) (i : nat) (d : list nat) (v : vec) : outcome vec :=
    match d with
    | nil => Ok v
    | r :: t => match nth_error lhs i, nth_error v r with
                | Some a, Some vr => add_all lhs (S i) t (upd v r (vr + a))
                | _, _ => UB
                end
    end.
  (** relaxResult, :1519-1522, 1441-1448 (current entry) and :1325-1328 (all entries) *)
  Definition relaxResult (w : R) (lhs : vec) (i : nat) : outcome vec :=
    if whole SD then Ok (map (fun a => w * a) lhs)
    else match nth_error lhs i with Some a => Ok (upd lhs i (w * a)) | None => UB end.
  (** MultiplicativeAdder::operator(), :1582-1587 *)
  Fixpoint mult_all (w : R) (lhs : vec) (i : nat) (d : list nat) (x : vec) : outcome (vec * vec) :=
    match d with
    | nil => Ok (lhs, x)
    | r :: t => obind (relaxResult w lhs i) (fun lhs' =>
                match nth_error lhs' i, nth_error x r with
                | Some a, Some xr => mult_all w lhs' (S i) t (upd x r (xr + a))
                | _, _ => UB
                end)
    end.
  (** The state of the loop: x, the update v, the arrays of the assigner *)
  Record sst := mkS { s_x : vec; s_v : vec; s_lhs : vec; s_rhs : vec }.
  (** one pass of the loop of apply<forward>, :1250-1271; [fly]: set up the solver now, otherwise [sol] is the stored one *)
  Definition one_domain (A : smat) (w : R) (additive : bool) (b : vec) (fly : bool) (dom : list nat * option (loc SD)) (s : sst) : outcome sst :=
    obind (assign_all A b (s_x s) (s_rhs s) 0 (fst dom)) (fun rhs =>
    obind (if fly then set_sub SD A (fst dom) else match snd dom with Some l => Ok l | None => UB end) (fun l =>
    obind (l_apply SD l (s_lhs s) rhs) (fun r =>
    if additive then obind (add_all (fst r) 0 (fst dom) (s_v s)) (fun v => Ok (mkS (s_x s) v (fst r) (snd r)))
    else obind (mult_all w (fst r) 0 (fst dom) (s_x s)) (fun lx => Ok (mkS (snd lx) (s_v s) (fst lx) (snd r)))))).
  Fixpoint sweep (A : smat) (w : R) (additive : bool) (b : vec) (fly : bool) (doms : list (list nat * option (loc SD))) (s : sst) : outcome sst :=
    match doms with
    | nil => Ok s
    | d :: t => obind (one_domain A w additive b fly d s) (sweep A w additive b fly t)
    end.
  (** AdditiveSchwarzMode, MultiplicativeSchwarzMode, SymmetricMultiplicativeSchwarzMode, overlappingschwarz.hh:119-133 *)
  Inductive mode := Additive | Multiplicative | SymmetricMultiplicative.
  Definition is_additive (m : mode) : bool := match m with Additive => true | _ => false end.
  (** the object: overlappingschwarz.hh:871-880; subDomains and solvers have the same length, [None]: solver never set up (onTheFly) *)
  Record schwarz := mkSchwarz { z_A : smat; z_doms : list (list nat * option (loc SD)); z_w : R; z_max : nat; z_fly : bool }.
  (** apply<forward>, :1234-1276; rhs_ and lhs_ start as maxlength default-constructed blocks *)
  Definition apply_dir (m : mode) (z : schwarz) (forward : bool) (x b : vec) : outcome vec :=
    obind (sweep (z_A z) (z_w z) (is_additive m) b (z_fly z) (if forward then z_doms z else rev (z_doms z))
                 (mkS x (repeat r0 (length x)) (repeat r0 (z_max z)) (repeat r0 (z_max z)))) (fun s =>
      Ok (if is_additive m then map (fun p => fst p + z_w z * snd p) (combine (s_x s) (s_v s)) else s_x s)).
  (** apply, :1227-1230 with SeqOverlappingSchwarzApplier, :668-690 *)
  Definition schwarz_apply (m : mode) (z : schwarz) (x b : vec) : outcome vec :=
    match m with
    | SymmetricMultiplicative => obind (apply_dir m z true x b) (fun x1 => apply_dir m z false x1 b)
    | _ => apply_dir m z true x b
    end.
  (** assembleLocalProblems, :1122-1139, 1198-1222, and the constructor from subdomains, :1056-1094 *)
  Fixpoint assemble (A : smat) (fly : bool) (sd : list (list nat)) : outcome (list (list nat * option (loc SD))) :=
    match sd with
    | nil => Ok nil
    | d :: t => obind (if fly then Ok None else obind (set_sub SD A d) (fun l => Ok (Some l))) (fun o =>
                obind (assemble A fly t) (fun r => Ok ((d, o) :: r)))
    end.
  Definition max_size (sd : list (list nat)) : nat := fold_right (fun d m => Nat.max (length d) m) 0%nat sd.
  Definition schwarz_ctor (A : smat) (sd : list (list nat)) (w : R) (fly : bool) : outcome schwarz :=
    if forallb (forallb (fun r => r <? length A)) sd then
      obind (assemble A fly sd) (fun doms => Ok (mkSchwarz A doms w (max_size sd) fly))
    else UB.
  (** the constructor from the row-to-domain lists, :1009-1053 *)
  Definition domain_count (rtd : list (list nat)) : nat := S (fold_left (fun m l => fold_left Nat.max l m) rtd 0%nat).
  Fixpoint fill_domains (row : nat) (rtd : list (list nat)) (sd : list (list nat)) : list (list nat) :=
    match rtd with
    | nil => sd
    | l :: t => fill_domains (S row) t (fold_left (fun s d => upd s d (set_ins row (nth d s nil))) l sd)
    end.
  Definition domains_of_rows (rtd : list (list nat)) : list (list nat) := fill_domains 0 rtd (repeat nil (domain_count rtd)).
  Definition schwarz_ctor_rows (A : smat) (rtd : list (list nat)) (w : R) (fly : bool) : outcome schwarz := schwarz_ctor A (domains_of_rows rtd) w fly.

  (** ** Specification *)
  (** the residual b - A x at row i *)
  Definition residual (n : nat) (A : smat) (b x : vec) (i : nat) : R := vget b i - sum n (fun j => den A i j * vget x j).
  (** z, numbered like the rows of the subdomain, as a vector on all rows *)
  Definition extend (d : list nat) (z : vec) (i : nat) : R := match pos d i with Some k => vget z k | None => r0 end.
  (** z is what the subdomain solver set up for the rows d of A returns for the right-hand side r, in arrays that may be longer *)
  Definition local_solution (A : smat) (d : list nat) (r z : vec) : Prop :=
    exists l lhs rhs lhs' rhs', set_sub SD A d = Ok l /\ firstn (length d) rhs = r /\ l_apply SD l lhs rhs = Ok (lhs', rhs') /\ firstn (length d) lhs' = z /\
      length r = length d /\ length z = length d.
  (** the same with a factor for each position *)
  Definition extend_by (c : nat -> R) (d : list nat) (z : vec) (i : nat) : R := match pos d i with Some k => c k * vget z k | None => r0 end.
  Fixpoint pow (w : R) (k : nat) : R := match k with O => r1 | S k' => w * pow w k' end.
  (** what DynamicMatrixSubdomainSolver computes: the correction at the k-th row of the subdomain (from 0) is scaled by w^(k+1) *)
  Inductive mult_steps_powers (n : nat) (A : smat) (w : R) (b : vec) : list (list nat) -> vec -> vec -> Prop :=
  | mp_nil x : mult_steps_powers n A w b nil x x
  | mp_cons d ds x z x1 x' : local_solution A d (map (residual n A b x) d) z -> length x1 = n ->
      (forall i, i < n -> vget x1 i = vget x i + extend_by (fun k => pow w (S k)) d z i) -> mult_steps_powers n A w b ds x1 x' -> mult_steps_powers n A w b (d :: ds) x x'.
  (** one multiplicative step: x' = x + w E z with z the local solution for the residual of x on the subdomain *)
  Inductive mult_steps (n : nat) (A : smat) (w : R) (b : vec) : list (list nat) -> vec -> vec -> Prop :=
  | ms_nil x : mult_steps n A w b nil x x
  | ms_cons d ds x z x1 x' : local_solution A d (map (residual n A b x) d) z -> length x1 = n ->
      (forall i, i < n -> vget x1 i = vget x i + w * extend d z i) -> mult_steps n A w b ds x1 x' -> mult_steps n A w b (d :: ds) x x'.
  (** the rows of a subdomain: std::set of row numbers *)
  Definition domain_wf (n : nat) (d : list nat) : Prop := StronglySorted lt d /\ Forall (fun r => r < n) d.
  (** apply keeps the lengths of the arrays *)
  Definition keeps_length : Prop := forall l lhs rhs lhs' rhs', l_apply SD l lhs rhs = Ok (lhs', rhs') -> length lhs' = length lhs /\ length rhs' = length rhs.
End Model.

Section Proofs.
  Context {R : ring}.
  Local Open Scope ring_scope_istl.
  Local Notation vec := (list R).
  Local Notation smat := (smat R).
  Variable SD : @subsolver R.

  Lemma pos_some d j k : pos d j = Some k -> k < length d /\ nth k d 0%nat = j.
  Proof.
    revert k. induction d as [|r t IH]; intros k H; cbn in H; [discriminate|]. destruct (Nat.eqb_spec r j) as [->|].
    - injection H as <-. cbn. split; [lia|auto].
    - destruct (pos t j) as [k1|] eqn:E; [|discriminate]. injection H as <-. destruct (IH _ eq_refl). cbn. split; [lia|auto].
  Qed.
  Lemma pos_none d j : pos d j = None -> ~ In j d.
  Proof.
    induction d as [|r t IH]; cbn; [tauto|]. destruct (Nat.eqb_spec r j) as [->|]; [discriminate|]. destruct (pos t j); [discriminate|]. intros _ [?|?]; auto. apply IH; auto.
  Qed.
  Lemma pos_notin d j : ~ In j d -> pos d j = None.
  Proof. intros H. destruct (pos d j) as [k|] eqn:E; auto. apply pos_some in E. destruct E as [E1 E2]. exfalso. apply H. rewrite <- E2. apply nth_In. auto. Qed.
  Lemma pos_nth d k : NoDup d -> k < length d -> pos d (nth k d 0%nat) = Some k.
  Proof.
    revert k. induction d as [|r t IH]; intros k HN Hk; cbn in Hk; [lia|]. inversion HN; subst. destruct k as [|k]; cbn; [now rewrite Nat.eqb_refl|].
    destruct (Nat.eqb_spec r (nth k t 0%nat)) as [E|]; [exfalso; apply H1; rewrite E; apply nth_In; lia|]. rewrite IH by (auto; lia). reflexivity.
  Qed.
  Lemma row_residual n (A : smat) b x r row br : mat_wf n n A -> nth_error A r = Some row -> nth_error b r = Some br ->
    fold_left (fun s (e : nat * R) => s - snd e * vget x (fst e)) row br = residual n A b x r.
  Proof.
    intros HW HA HB. unfold residual, den. rewrite (fold_left_sub (fun e : nat * R => snd e * vget x (fst e))).
    assert (E1 : nth r A nil = row) by (apply nth_error_nth; auto). assert (E2 : vget b r = br) by (apply nth_error_nth; auto). rewrite E1, E2. f_equal. f_equal.
    pose proof (mat_wf_row n n A r HW) as [W1 W2]. rewrite E1 in W1, W2. apply (lsum_row (fun j a => a * vget x j)); auto.
    - apply ssorted_NoDup; auto.
    - intros. ncring.
  Qed.
  Lemma nth_error_vget (x : vec) i : i < length x -> nth_error x i = Some (vget x i).
  Proof. intros H. unfold vget. apply nth_error_nth'. auto. Qed.

  Lemma assign_all_ok n (A : smat) b x : mat_wf n n A -> length b = n -> forall d rhs i, Forall (fun r => r < n) d -> i + length d <= length rhs ->
    exists rhs', assign_all A b x rhs i d = Ok rhs' /\ length rhs' = length rhs /\ (forall k, k < length d -> vget rhs' (i + k) = residual n A b x (nth k d 0%nat)) /\
      (forall k, k < i -> vget rhs' k = vget rhs k).
  Proof.
    intros HW Hb. pose proof (proj1 HW) as HL. induction d as [|r t IH]; intros rhs i HF HI; cbn in HI.
    - exists rhs. cbn. repeat (split; auto). intros; lia.
    - inversion HF; subst. cbn [assign_all]. unfold assign1. destruct (nth_error A r) as [row|] eqn:EA; [|apply nth_error_None in EA; lia].
      destruct (nth_error b r) as [br|] eqn:EB; [|apply nth_error_None in EB; lia]. destruct (Nat.ltb_spec i (length rhs)); [|lia]. cbn [obind].
      rewrite (row_residual (length b) A b x r row br) by auto.
      destruct (IH (upd rhs i (residual (length b) A b x r)) (S i)) as [rhs' [E1 [E2 [E3 E4]]]]; [auto|rewrite upd_length; lia|].
      exists rhs'. rewrite upd_length in E2. split; [exact E1|]. split; [auto|]. split.
      + intros [|k] Hk; cbn [nth].
        * rewrite Nat.add_0_r, E4 by lia. rewrite vget_upd by lia. now rewrite Nat.eqb_refl.
        * rewrite <- Nat.add_succ_comm. apply E3. cbn in Hk. lia.
      + intros k Hk. rewrite E4 by lia. rewrite vget_upd by lia. destruct (Nat.eqb_spec k i); [lia|auto].
  Qed.
  Lemma assign_all_fits (A : smat) b x d : forall rhs i rhs', assign_all A b x rhs i d = Ok rhs' -> length rhs' = length rhs /\ (d <> nil -> i + length d <= length rhs).
  Proof.
    induction d as [|r t IH]; intros rhs i rhs' H; cbn [assign_all] in H; [injection H as <-; split; [auto|congruence]|].
    unfold assign1 in H. destruct (nth_error A r); [|discriminate]. destruct (nth_error b r); [|discriminate]. destruct (Nat.ltb_spec i (length rhs)); [|discriminate]. cbn [obind] in H.
    apply IH in H. destruct H as [H1 H2]. rewrite upd_length in *. split; [auto|]. intros _. cbn. destruct t; [cbn; lia|]. specialize (H2 ltac:(discriminate)). cbn in *. lia.
  Qed.
  (** entry k of the local array goes to row d_k *)
  Lemma add_all_spec d : forall (lhs : vec) i v v', NoDup d -> add_all lhs i d v = Ok v' -> length v' = length v /\
    forall j, vget v' j = vget v j + extend d (skipn i lhs) j.
  Proof.
    induction d as [|r t IH]; intros lhs i v v' HN H; cbn [add_all] in H; [injection H as <-; split; auto; intros; unfold extend; cbn; ncring|].
    destruct (nth_error lhs i) as [a|] eqn:EL; [|discriminate]. destruct (nth_error v r) as [vr|] eqn:EV; [|discriminate]. inversion HN; subst.
    apply IH in H; auto. destruct H as [H1' H2']. rewrite upd_length in H1'. split; auto. intros j. rewrite H2'.
    assert (Hr : r < length v) by (apply nth_error_Some; congruence). rewrite vget_upd by auto. unfold extend. cbn [pos]. rewrite (Nat.eqb_sym r j).
    assert (ES : skipn i lhs = a :: skipn (S i) lhs). { clear - EL. revert i EL. induction lhs as [|y l IH]; intros [|i] E; cbn in *; try discriminate; [injection E as ->; auto|]. rewrite IH; auto. }
    destruct (Nat.eqb_spec j r) as [->|].
    - rewrite pos_notin by auto. rewrite ES. assert (EE : vget v r = vr) by (apply nth_error_nth; auto). rewrite EE. unfold vget. cbn. ncring.
    - destruct (pos t j) as [k|]; cbn; [|auto]. rewrite ES. reflexivity.
  Qed.
  Lemma add_all_ok n d : forall (lhs : vec) i v, Forall (fun r => r < n) d -> length v = n -> i + length d <= length lhs -> exists v', add_all lhs i d v = Ok v'.
  Proof.
    induction d as [|r t IH]; intros lhs i v HF HV HI; cbn [add_all]; [eauto|]. inversion HF; subst. cbn in HI. rewrite (nth_error_vget lhs i) by lia. rewrite (nth_error_vget v r) by auto.
    apply IH; auto; [apply upd_length|lia].
  Qed.
  Lemma mult_all_spec w d : forall (lhs : vec) i x lhs' x', whole SD = false -> NoDup d -> mult_all SD w lhs i d x = Ok (lhs', x') -> length lhs' = length lhs /\ length x' = length x /\
    forall j, vget x' j = vget x j + w * extend d (skipn i lhs) j.
  Proof.
    induction d as [|r t IH]; intros lhs i x lhs' x' HWh HN H; cbn [mult_all] in H; [injection H as <- <-; split; auto; split; auto; intros; unfold extend; cbn; ncring|].
    unfold relaxResult in H. rewrite HWh in H. destruct (nth_error lhs i) as [a|] eqn:EL; cbn [obind] in H; [|discriminate].
    assert (Hi : i < length lhs) by (apply nth_error_Some; congruence). rewrite nth_error_vget, vget_upd, Nat.eqb_refl in H by (rewrite ?upd_length; auto).
    destruct (nth_error x r) as [xr|] eqn:EX; [|discriminate]. inversion HN; subst.
    apply IH in H; auto. destruct H as [H1' [H2' H3']]. rewrite !upd_length in *. split; auto. split; auto. intros j. rewrite H3'.
    assert (Hr : r < length x) by (apply nth_error_Some; congruence). rewrite vget_upd by auto. unfold extend. cbn [pos]. rewrite (Nat.eqb_sym r j).
    assert (ES : skipn i lhs = a :: skipn (S i) lhs). { clear - EL. revert i EL. induction lhs as [|y l IH]; intros [|i] E; cbn in *; try discriminate; [injection E as ->; auto|]. rewrite IH; auto. }
    assert (EU : skipn (S i) (upd lhs i (w * a)) = skipn (S i) lhs). { clear. revert i. induction lhs as [|y l IH]; intros [|i]; cbn; auto. apply IH. }
    destruct (Nat.eqb_spec j r) as [->|].
    - rewrite pos_notin by auto. rewrite ES. assert (EE : vget x r = xr) by (apply nth_error_nth; auto). rewrite EE. unfold vget. cbn. ncring.
    - rewrite EU, ES. destruct (pos t j) as [k|]; reflexivity.
  Qed.
  Lemma mult_all_ok n w d : forall (lhs : vec) i x, Forall (fun r => r < n) d -> length x = n -> i + length d <= length lhs -> exists r, mult_all SD w lhs i d x = Ok r.
  Proof.
    induction d as [|r t IH]; intros lhs i v HF HV HI; cbn [mult_all]; [eauto|]. inversion HF; subst. cbn in HI. unfold relaxResult. destruct (whole SD).
    - cbn [obind]. rewrite (nth_error_vget (map _ lhs) i) by (rewrite map_length; lia). rewrite (nth_error_vget v r) by auto. apply IH; auto; [apply upd_length|rewrite map_length; lia].
    - rewrite (nth_error_vget lhs i) by lia. cbn [obind]. rewrite (nth_error_vget (upd _ _ _) i) by (rewrite upd_length; lia). rewrite (nth_error_vget v r) by auto.
      apply IH; auto; [apply upd_length|rewrite upd_length; lia].
  Qed.

  Lemma mult_all_whole w d : forall (lhs : vec) i x lhs' x', whole SD = true -> NoDup d -> mult_all SD w lhs i d x = Ok (lhs', x') -> length lhs' = length lhs /\ length x' = length x /\
    forall j, vget x' j = vget x j + extend_by (fun k => pow w (S k)) d (skipn i lhs) j.
  Proof.
    induction d as [|r t IH]; intros lhs i x lhs' x' HWh HN H; cbn [mult_all] in H; [injection H as <- <-; split; auto; split; auto; intros; unfold extend_by; cbn; ncring|].
    unfold relaxResult in H. rewrite HWh in H. cbn [obind] in H. destruct (nth_error (map (fun a => w * a) lhs) i) as [a|] eqn:EL; [|discriminate].
    destruct (nth_error x r) as [xr|] eqn:EX; [|discriminate]. inversion HN; subst.
    apply IH in H; auto. destruct H as [H1' [H2' H3']]. rewrite map_length in H1'. rewrite upd_length in H2'. split; auto. split; auto. intros j. rewrite H3'.
    assert (Hr : r < length x) by (apply nth_error_Some; congruence). rewrite vget_upd by auto. unfold extend_by. cbn [pos]. rewrite (Nat.eqb_sym r j).
    rewrite nth_error_map in EL. destruct (nth_error lhs i) as [a0|] eqn:EL0; [|discriminate]. injection EL as <-.
    assert (ES : skipn i lhs = a0 :: skipn (S i) lhs). { clear - EL0. revert i EL0. induction lhs as [|y l IH]; intros [|i] E; cbn in *; try discriminate; [injection E as ->; auto|]. rewrite IH; auto. }
    assert (EU : skipn (S i) (map (fun a => w * a) lhs) = map (fun a => w * a) (skipn (S i) lhs)) by (rewrite skipn_map; auto).
    destruct (Nat.eqb_spec j r) as [->|].
    - rewrite pos_notin by auto. rewrite ES. assert (EE : vget x r = xr) by (apply nth_error_nth; auto). rewrite EE. unfold vget. cbn. ncring.
    - rewrite EU, ES. destruct (pos t j) as [k|]; [|reflexivity]. cbn [option_map]. f_equal. change (vget (a0 :: skipn (S i) lhs) (S k)) with (vget (skipn (S i) lhs) k).
      assert (EM : vget (map (fun a => w * a) (skipn (S i) lhs)) k = w * vget (skipn (S i) lhs) k).
      { unfold vget. transitivity (nth k (map (fun a => w * a) (skipn (S i) lhs)) (w * r0)); [f_equal; ncring|apply (map_nth (fun a => w * a))]. }
      rewrite EM. cbn [pow]. assert (PC : forall m, pow w m * w = w * pow w m) by (induction m as [|m IHm]; cbn; [ncring|rewrite <- rmul_assoc, IHm; ncring]).
      rewrite rmul_assoc, <- (rmul_assoc R w). rewrite PC. ncring.
  Qed.
  Hypothesis KL : keeps_length SD.
  Definition ready (A : smat) (fly : bool) (dom : list nat * option (loc SD)) : Prop := fly = false -> exists l, snd dom = Some l /\ set_sub SD A (fst dom) = Ok l.
  Definition arrays (s : @sst R) : Prop := length (s_lhs s) = length (s_rhs s).
  Lemma extend_firstn c d (z : vec) i : extend_by c d (firstn (length d) z) i = extend_by c d z i.
  Proof.
    unfold extend_by. destruct (pos d i) as [k|] eqn:E; auto. apply pos_some in E. f_equal. unfold vget.
    rewrite <- (firstn_skipn (length d) z) at 2. destruct (Nat.lt_ge_cases k (length z)).
    - rewrite app_nth1; auto. rewrite firstn_length. lia.
    - rewrite firstn_skipn, !nth_overflow; auto. rewrite firstn_length. lia.
  Qed.
  Lemma extend_one d (z : vec) i : extend_by (fun _ => r1) d z i = extend d z i.
  Proof. unfold extend_by, extend. destruct (pos d i); ncring. Qed.
  Lemma extend_const w d (z : vec) i : extend_by (fun _ => w) d z i = w * extend d z i.
  Proof. unfold extend_by, extend. destruct (pos d i); ncring. Qed.
  Lemma domain_nodup n d : domain_wf n d -> NoDup d.
  Proof. intros [H _]. apply ssorted_NoDup, H. Qed.
  Lemma one_domain_spec n (A : smat) w additive b fly dom (s s' : @sst R) : mat_wf n n A -> length b = n -> length (s_x s) = n -> length (s_v s) = n -> arrays s -> domain_wf n (fst dom) -> ready A fly dom ->
    one_domain SD A w additive b fly dom s = Ok s' ->
    exists z, local_solution SD A (fst dom) (map (residual n A b (s_x s)) (fst dom)) z /\ length (s_x s') = n /\ length (s_v s') = n /\ arrays s' /\
      if additive then s_x s' = s_x s /\ forall j, vget (s_v s') j = vget (s_v s) j + extend (fst dom) z j
      else s_v s' = s_v s /\ forall j, vget (s_x s') j = vget (s_x s) j + extend_by (fun k => if whole SD then pow w (S k) else w) (fst dom) z j.
  Proof.
    intros HW Hb Hx Hv HA HD HR H. unfold one_domain in H. destruct dom as [d o]. cbn [fst snd] in *.
    destruct (assign_all A b (s_x s) (s_rhs s) 0 d) as [rhs| |] eqn:ER; cbn [obind] in H; try discriminate.
    destruct (assign_all_fits _ _ _ _ _ _ _ ER) as [F1 F2].
    assert (HFit : length d <= length (s_rhs s)) by (destruct d; [cbn; lia|specialize (F2 ltac:(discriminate)); lia]).
    destruct (assign_all_ok n A b (s_x s) HW Hb d (s_rhs s) 0 (proj2 HD) ltac:(lia)) as [rhs2 [E1 [E2 [E3 _]]]]. rewrite ER in E1. injection E1 as <-.
    assert (EL : exists l, set_sub SD A d = Ok l /\ (if fly then set_sub SD A d else match o with Some l => Ok l | None => UB end) = Ok l).
    { destruct fly; [destruct (set_sub SD A d) as [l| |]; cbn [obind] in H; try discriminate; eauto|]. destruct (HR eq_refl) as [l [E4 E5]]. cbn in E4, E5. subst o. eauto. }
    destruct EL as [l [EL1 EL2]]. rewrite EL2 in H. cbn [obind] in H. destruct (l_apply SD l (s_lhs s) rhs) as [[lhs' rhs']| |] eqn:EA; cbn [obind fst snd] in H; try discriminate.
    destruct (KL _ _ _ _ _ EA) as [K1 K2]. unfold arrays in HA.
    assert (EF : firstn (length d) rhs = map (residual n A b (s_x s)) d).
    { apply (list_ext _ _ r0); [rewrite firstn_length, map_length; lia|]. intros k Hk. rewrite firstn_length in Hk.
      transitivity (vget rhs k). { unfold vget. rewrite <- (firstn_skipn (length d) rhs) at 2. rewrite app_nth1; auto. rewrite firstn_length. lia. }
      rewrite (E3 k ltac:(lia) : vget rhs k = _). symmetry. rewrite nth_indep with (d' := residual n A b (s_x s) 0%nat) by (rewrite map_length; lia). apply map_nth. }
    exists (firstn (length d) lhs'). split.
    { exists l, (s_lhs s), rhs, lhs', rhs'. repeat (split; auto). - rewrite map_length; auto. - rewrite firstn_length. lia. }
    pose proof (domain_nodup n d HD) as HN. destruct additive.
    - destruct (add_all lhs' 0 d (s_v s)) as [v| |] eqn:EV; cbn [obind] in H; try discriminate. injection H as <-. cbn [s_x s_v s_lhs s_rhs fst snd]. apply add_all_spec in EV; auto. destruct EV as [V1 V2].
      repeat (split; auto; try lia). { unfold arrays. cbn. lia. } intros j. rewrite V2. rewrite <- !extend_one, extend_firstn. reflexivity.
    - destruct (mult_all SD w lhs' 0 d (s_x s)) as [[lx x1]| |] eqn:EM; cbn [obind fst snd] in H; try discriminate. injection H as <-. cbn [s_x s_v s_lhs s_rhs fst snd].
      assert (G : length lx = length lhs' /\ length x1 = length (s_x s) /\ forall j, vget x1 j = vget (s_x s) j + extend_by (fun k => if whole SD then pow w (S k) else w) d lhs' j).
      { destruct (whole SD) eqn:EW; [apply mult_all_whole in EM; auto|]. apply mult_all_spec in EM; auto. destruct EM as [M1 [M2 M3]]. repeat (split; auto). intros j. rewrite M3, extend_const. reflexivity. }
      destruct G as [G1 [G2 G3]]. repeat (split; auto; try lia). { unfold arrays. cbn. lia. } intros j. rewrite G3, extend_firstn. reflexivity.
  Qed.
  Lemma sweep_mult n (A : smat) w b fly : mat_wf n n A -> length b = n -> whole SD = false -> forall doms (s s' : @sst R), length (s_x s) = n -> length (s_v s) = n -> arrays s ->
    Forall (fun dom => domain_wf n (fst dom)) doms -> Forall (ready A fly) doms -> sweep SD A w false b fly doms s = Ok s' ->
    mult_steps SD n A w b (map fst doms) (s_x s) (s_x s') /\ length (s_x s') = n.
  Proof.
    intros HW Hb HWh. induction doms as [|dom t IH]; intros s s' Hx Hv HA HD HR H; cbn [sweep] in H; [injection H as <-; split; auto; constructor|].
    destruct (one_domain SD A w false b fly dom s) as [s1| |] eqn:E; cbn [obind] in H; try discriminate. inversion HD; inversion HR; subst.
    destruct (one_domain_spec (length b) A w false b fly dom s s1) as [z [Z1 [Z2 [Z3 [Z4 [_ Z6]]]]]]; auto. destruct (IH s1 s') as [I1 I2]; auto. split; auto.
    cbn [map]. apply (ms_cons SD (length b) A w b (fst dom) (map fst t) (s_x s) z (s_x s1)); auto. intros i _. rewrite Z6, HWh, extend_const. reflexivity.
  Qed.
  Lemma sweep_powers n (A : smat) w b fly : mat_wf n n A -> length b = n -> whole SD = true -> forall doms (s s' : @sst R), length (s_x s) = n -> length (s_v s) = n -> arrays s ->
    Forall (fun dom => domain_wf n (fst dom)) doms -> Forall (ready A fly) doms -> sweep SD A w false b fly doms s = Ok s' ->
    mult_steps_powers SD n A w b (map fst doms) (s_x s) (s_x s') /\ length (s_x s') = n.
  Proof.
    intros HW Hb HWh. induction doms as [|dom t IH]; intros s s' Hx Hv HA HD HR H; cbn [sweep] in H; [injection H as <-; split; auto; constructor|].
    destruct (one_domain SD A w false b fly dom s) as [s1| |] eqn:E; cbn [obind] in H; try discriminate. inversion HD; inversion HR; subst.
    destruct (one_domain_spec (length b) A w false b fly dom s s1) as [z [Z1 [Z2 [Z3 [Z4 [_ Z6]]]]]]; auto. destruct (IH s1 s') as [I1 I2]; auto. split; auto.
    cbn [map]. apply (mp_cons SD (length b) A w b (fst dom) (map fst t) (s_x s) z (s_x s1)); auto. intros i _. rewrite Z6, HWh. reflexivity.
  Qed.
  Lemma sweep_add n (A : smat) w b fly : mat_wf n n A -> length b = n -> forall doms (s s' : @sst R), length (s_x s) = n -> length (s_v s) = n -> arrays s ->
    Forall (fun dom => domain_wf n (fst dom)) doms -> Forall (ready A fly) doms -> sweep SD A w true b fly doms s = Ok s' ->
    s_x s' = s_x s /\ length (s_v s') = n /\ exists zs, Forall2 (fun d z => local_solution SD A d (map (residual n A b (s_x s)) d) z) (map fst doms) zs /\
      forall j, vget (s_v s') j = vget (s_v s) j + lsum (map (fun p => extend (fst p) (snd p) j) (combine (map fst doms) zs)).
  Proof.
    intros HW Hb. induction doms as [|dom t IH]; intros s s' Hx Hv HA HD HR H; cbn [sweep] in H.
    - injection H as <-. split; auto. split; auto. exists nil. split; [constructor|]. intros j. cbn. ncring.
    - destruct (one_domain SD A w true b fly dom s) as [s1| |] eqn:E; cbn [obind] in H; try discriminate. inversion HD; inversion HR; subst.
      destruct (one_domain_spec (length b) A w true b fly dom s s1) as [z [Z1 [Z2 [Z3 [Z4 [Z5 Z6]]]]]]; auto. destruct (IH s1 s') as [I1 [I2 [zs [I3 I4]]]]; auto.
      rewrite Z5 in I1, I3. split; auto. split; auto. exists (z :: zs). split; [constructor; auto|]. intros j. rewrite I4, Z6. cbn. ncring.
  Qed.
  (** ** Theorems *)
  (** an object as the constructor leaves it *)
  Definition constructed (n : nat) (A : smat) (sd : list (list nat)) (w : R) (fly : bool) (z : schwarz SD) : Prop :=
    schwarz_ctor SD A sd w fly = Ok z /\ mat_wf n n A /\ Forall (domain_wf n) sd.
  Lemma assemble_ready (A : smat) fly sd : forall doms, assemble SD A fly sd = Ok doms -> map fst doms = sd /\ Forall (ready A fly) doms.
  Proof.
    induction sd as [|d t IH]; intros doms H; cbn [assemble] in H; [injection H as <-; split; auto|].
    destruct fly.
    - cbn [obind] in H. destruct (assemble SD A true t) as [r| |]; cbn [obind] in H; try discriminate. injection H as <-. destruct (IH _ eq_refl) as [I1 I2]. cbn. rewrite I1. split; auto. constructor; auto. discriminate.
    - destruct (set_sub SD A d) as [l| |] eqn:E; cbn [obind] in H; try discriminate. destruct (assemble SD A false t) as [r| |]; cbn [obind] in H; try discriminate. injection H as <-.
      destruct (IH _ eq_refl) as [I1 I2]. cbn. rewrite I1. split; auto. constructor; auto. intros _. exists l. auto.
  Qed.
  Lemma constructed_facts n A sd w fly z : constructed n A sd w fly z -> z_A SD z = A /\ z_w SD z = w /\ z_fly SD z = fly /\ map fst (z_doms SD z) = sd /\ z_max SD z = max_size sd /\
    Forall (fun dom => domain_wf n (fst dom)) (z_doms SD z) /\ Forall (ready A fly) (z_doms SD z).
  Proof.
    intros [H [HW HD]]. unfold schwarz_ctor in H. destruct (forallb _ sd); [|discriminate]. destruct (assemble SD A fly sd) as [doms| |] eqn:E; cbn [obind] in H; try discriminate. injection H as <-.
    destruct (assemble_ready _ _ _ _ E) as [E1 E2]. cbn. repeat (split; auto). rewrite <- E1 in HD. clear - HD. rewrite Forall_forall in *. intros x Hx. apply HD, in_map. auto.
  Qed.
  (** AdditiveSchwarzMode: x' = x + w sum_i E_i S_i (b - A x)|_i, all local problems with the same residual. *)
  Theorem C55_additive n A sd w fly z x b x' : constructed n A sd w fly z -> length x = n -> length b = n -> schwarz_apply SD Additive z x b = Ok x' ->
    length x' = n /\ exists zs, Forall2 (fun d y => local_solution SD A d (map (residual n A b x) d) y) sd zs /\
      forall i, i < n -> vget x' i = vget x i + w * lsum (map (fun p => extend (fst p) (snd p) i) (combine sd zs)).
  Proof.
    intros HC Hx Hb H. pose proof (proj1 (proj2 HC)) as HW. destruct (constructed_facts _ _ _ _ _ _ HC) as [E1 [E2 [E3 [E4 [E5 [E6 E7]]]]]].
    unfold schwarz_apply, apply_dir in H. cbn [is_additive] in H. rewrite E1, E2, E3 in H. destruct (sweep _ _ _ _ _ _ _ _) as [s| |] eqn:ES; cbn [obind] in H; try discriminate. injection H as <-.
    apply (sweep_add n) in ES; auto; cbn; [|rewrite repeat_length; auto|unfold arrays; cbn; rewrite !repeat_length; auto]. cbn in ES. rewrite E4 in ES. destruct ES as [S1 [S2 [zs [S3 S4]]]]. rewrite S1.
    split; [rewrite map_length, combine_length; lia|]. exists zs. split; auto. intros i Hi. rewrite (vget_map2 n (fun a c => a + w * c) x (s_v s) i) by auto.
    rewrite S4. f_equal. f_equal. rewrite nth_repeat. ncring.
  Qed.
  Lemma apply_dir_mult n A sd w fly z (m : mode) fwd x b x' : constructed n A sd w fly z -> is_additive m = false -> length x = n -> length b = n -> apply_dir SD m z fwd x b = Ok x' ->
    length x' = n /\ (whole SD = false -> mult_steps SD n A w b (if fwd then sd else rev sd) x x') /\ (whole SD = true -> mult_steps_powers SD n A w b (if fwd then sd else rev sd) x x').
  Proof.
    intros HC Hm Hx Hb H. pose proof (proj1 (proj2 HC)) as HW. destruct (constructed_facts _ _ _ _ _ _ HC) as [E1 [E2 [E3 [E4 [E5 [E6 E7]]]]]].
    unfold apply_dir in H. rewrite Hm, E1, E2, E3 in H. destruct (sweep _ _ _ _ _ _ _ _) as [s| |] eqn:ES; cbn [obind] in H; try discriminate. injection H as <-.
    set (doms := if fwd then z_doms SD z else rev (z_doms SD z)) in *.
    assert (D1 : map fst doms = if fwd then sd else rev sd) by (unfold doms; destruct fwd; rewrite ?map_rev, E4; auto).
    assert (D2 : Forall (fun dom => domain_wf n (fst dom)) doms) by (unfold doms; destruct fwd; auto; apply Forall_rev; auto).
    assert (D3 : Forall (ready A fly) doms) by (unfold doms; destruct fwd; auto; apply Forall_rev; auto).
    rewrite <- D1. destruct (whole SD) eqn:EW.
    - apply (sweep_powers n) in ES; auto; cbn; [|rewrite repeat_length; auto|unfold arrays; cbn; rewrite !repeat_length; auto]. destruct ES. repeat split; auto; discriminate.
    - apply (sweep_mult n) in ES; auto; cbn; [|rewrite repeat_length; auto|unfold arrays; cbn; rewrite !repeat_length; auto]. destruct ES. repeat split; auto; discriminate.
  Qed.
  Lemma mult_steps_app n A w b ds1 ds2 x y z : mult_steps SD n A w b ds1 x y -> mult_steps SD n A w b ds2 y z -> mult_steps SD n A w b (ds1 ++ ds2) x z.
  Proof. intros H1 H2. induction H1; auto. cbn [app]. econstructor; eauto. Qed.
  Lemma mult_powers_app n A w b ds1 ds2 x y z : mult_steps_powers SD n A w b ds1 x y -> mult_steps_powers SD n A w b ds2 y z -> mult_steps_powers SD n A w b (ds1 ++ ds2) x z.
  Proof. intros H1 H2. induction H1; auto. cbn [app]. econstructor; eauto. Qed.
  (** MultiplicativeSchwarzMode: one step per subdomain, in the given order, each with the residual of the current x.
      SymmetricMultiplicativeSchwarzMode: then once more in reverse order. *)
  Theorem C55_multiplicative n A sd w fly z x b x' : constructed n A sd w fly z -> whole SD = false -> length x = n -> length b = n ->
    (schwarz_apply SD Multiplicative z x b = Ok x' -> length x' = n /\ mult_steps SD n A w b sd x x') /\
    (schwarz_apply SD SymmetricMultiplicative z x b = Ok x' -> length x' = n /\ mult_steps SD n A w b (sd ++ rev sd) x x').
  Proof.
    intros HC HWh Hx Hb. split; intros H.
    - apply (apply_dir_mult n A sd w fly) in H; auto. destruct H as [H1 [H2 _]]. auto.
    - cbn [schwarz_apply] in H. destruct (apply_dir SD SymmetricMultiplicative z true x b) as [x1| |] eqn:E1; cbn [obind] in H; try discriminate.
      apply (apply_dir_mult n A sd w fly) in E1; auto. destruct E1 as [L1 [M1 _]]. apply (apply_dir_mult n A sd w fly) in H; auto. destruct H as [L2 [M2 _]]. split; auto.
      specialize (M1 HWh). specialize (M2 HWh). cbn in M1, M2. eapply mult_steps_app; eauto.
  Qed.
  (** DynamicMatrixSubdomainSolver *)
  Theorem C55_multiplicative_dynamic n A sd w fly z x b x' : constructed n A sd w fly z -> whole SD = true -> length x = n -> length b = n ->
    (schwarz_apply SD Multiplicative z x b = Ok x' -> length x' = n /\ mult_steps_powers SD n A w b sd x x') /\
    (schwarz_apply SD SymmetricMultiplicative z x b = Ok x' -> length x' = n /\ mult_steps_powers SD n A w b (sd ++ rev sd) x x').
  Proof.
    intros HC HWh Hx Hb. split; intros H.
    - apply (apply_dir_mult n A sd w fly) in H; auto. destruct H as [H1 [_ H2]]. auto.
    - cbn [schwarz_apply] in H. destruct (apply_dir SD SymmetricMultiplicative z true x b) as [x1| |] eqn:E1; cbn [obind] in H; try discriminate.
      apply (apply_dir_mult n A sd w fly) in E1; auto. destruct E1 as [L1 [_ M1]]. apply (apply_dir_mult n A sd w fly) in H; auto. destruct H as [L2 [_ M2]]. split; auto.
      specialize (M1 HWh). specialize (M2 HWh). cbn in M1, M2. eapply mult_powers_app; eauto.
  Qed.

  (** *** apply succeeds whenever the subdomain solvers do *)
  (** the subdomain solver for the rows d can be set up and solves with every right-hand side *)
  Definition solver_total (A : smat) (d : list nat) : Prop :=
    exists l, set_sub SD A d = Ok l /\ forall lhs rhs, length d <= length lhs -> length rhs = length lhs -> exists r, l_apply SD l lhs rhs = Ok r.
  Lemma one_domain_total n (A : smat) w additive b fly dom (s : @sst R) : mat_wf n n A -> length b = n -> length (s_x s) = n -> length (s_v s) = n -> arrays s -> domain_wf n (fst dom) -> ready A fly dom ->
    solver_total A (fst dom) -> length (fst dom) <= length (s_lhs s) -> exists s', one_domain SD A w additive b fly dom s = Ok s' /\ length (s_lhs s') = length (s_lhs s).
  Proof.
    intros HW Hb Hx Hv HA HD HR [l [HL HT]] HM. unfold arrays in HA. destruct dom as [d o]. cbn [fst snd] in *. unfold one_domain. cbn [fst snd].
    destruct (assign_all_ok n A b (s_x s) HW Hb d (s_rhs s) 0 (proj2 HD) ltac:(lia)) as [rhs [E1 [E2 _]]]. rewrite E1. cbn [obind].
    assert (EL : (if fly then set_sub SD A d else match o with Some l => Ok l | None => UB end) = Ok l).
    { destruct fly; auto. destruct (HR eq_refl) as [l1 [E4 E5]]. cbn in E4, E5. subst o. congruence. }
    rewrite EL. cbn [obind]. destruct (HT (s_lhs s) rhs) as [[lhs' rhs'] EA]; [lia|lia|]. rewrite EA. cbn [obind fst snd]. destruct (KL _ _ _ _ _ EA) as [K1 K2].
    destruct additive.
    - destruct (add_all_ok n d lhs' 0 (s_v s) (proj2 HD) Hv ltac:(lia)) as [v EV]. rewrite EV. cbn [obind]. eexists. split; eauto.
    - destruct (mult_all_ok n w d lhs' 0 (s_x s) (proj2 HD) Hx ltac:(lia)) as [[lx x1] EM]. rewrite EM. cbn [obind fst snd]. eexists. split; eauto. cbn.
      pose proof (domain_nodup n d HD) as HN. destruct (whole SD) eqn:EW; [apply mult_all_whole in EM|apply mult_all_spec in EM]; auto; lia.
  Qed.
  Lemma sweep_total n (A : smat) w additive b fly : mat_wf n n A -> length b = n -> forall doms (s : @sst R), length (s_x s) = n -> length (s_v s) = n -> arrays s ->
    Forall (fun dom => domain_wf n (fst dom)) doms -> Forall (ready A fly) doms -> Forall (fun dom => solver_total A (fst dom)) doms -> Forall (fun dom => length (fst dom) <= length (s_lhs s)) doms ->
    exists s', sweep SD A w additive b fly doms s = Ok s'.
  Proof.
    intros HW Hb. induction doms as [|dom t IH]; intros s Hx Hv HA HD HR HT HM; cbn [sweep]; [eauto|]. inversion HD; inversion HR; inversion HT; inversion HM; subst.
    destruct (one_domain_total (length b) A w additive b fly dom s) as [s1 [E1 E2]]; auto. rewrite E1. cbn [obind].
    destruct (one_domain_spec (length b) A w additive b fly dom s s1) as [z [Z1 [Z2 [Z3 [Z4 _]]]]]; auto. apply IH; auto. rewrite E2. auto.
  Qed.
  Lemma max_size_le sd d : In d sd -> length d <= max_size sd.
  Proof. induction sd as [|e t IH]; cbn; [tauto|]. intros [->|H]; [lia|]. specialize (IH H). unfold max_size in IH. lia. Qed.
  Lemma apply_dir_total n A sd w fly z m fwd x b : constructed n A sd w fly z -> Forall (solver_total A) sd -> length x = n -> length b = n -> exists x', apply_dir SD m z fwd x b = Ok x'.
  Proof.
    intros HC HT Hx Hb. pose proof (proj1 (proj2 HC)) as HW. destruct (constructed_facts _ _ _ _ _ _ HC) as [E1 [E2 [E3 [E4 [E5 [E6 E7]]]]]].
    unfold apply_dir. rewrite E1, E2, E3. set (doms := if fwd then z_doms SD z else rev (z_doms SD z)).
    assert (DI : forall dom, In dom doms -> In dom (z_doms SD z)) by (unfold doms; destruct fwd; auto; intros; apply in_rev; auto).
    destruct (sweep_total n A w (is_additive m) b fly HW Hb doms (mkS x (repeat r0 (length x)) (repeat r0 (z_max SD z)) (repeat r0 (z_max SD z)))) as [s' ES]; cbn; rewrite ?repeat_length; auto.
    - unfold arrays. cbn. rewrite !repeat_length. auto.
    - rewrite Forall_forall in *. auto.
    - rewrite Forall_forall in *. auto.
    - rewrite Forall_forall in *. intros dom HD. apply HT. rewrite <- E4. apply in_map. auto.
    - rewrite Forall_forall in *. intros dom HD. rewrite E5. apply max_size_le. rewrite <- E4. apply in_map. auto.
    - rewrite ES. cbn [obind]. eauto.
  Qed.
  (** the constructor succeeds if every subdomain solver can be set up; apply succeeds in every mode: the arrays of maximal subdomain size suffice, no access out of bounds *)
  Theorem C55_total n A sd w fly : mat_wf n n A -> Forall (domain_wf n) sd -> Forall (solver_total A) sd ->
    exists z, constructed n A sd w fly z /\ forall m x b, length x = n -> length b = n -> exists x', schwarz_apply SD m z x b = Ok x'.
  Proof.
    intros HW HD HT. assert (HC : exists z, constructed n A sd w fly z).
    { unfold constructed, schwarz_ctor. assert (EF : forallb (forallb (fun r => r <? length A)) sd = true).
      { apply forallb_forall. intros d Hd. rewrite Forall_forall in HD. destruct (HD d Hd) as [_ H]. apply forallb_forall. intros r Hr. rewrite Forall_forall in H. apply Nat.ltb_lt. rewrite (proj1 HW). auto. }
      rewrite EF. assert (EA : exists doms, assemble SD A fly sd = Ok doms).
      { clear -HT. induction sd as [|d t IH]; cbn [assemble]; [eauto|]. inversion HT; subst. destruct (IH H2) as [r E]. rewrite E. destruct H1 as [l [HL _]]. destruct fly; [|rewrite HL]; cbn [obind]; eauto. }
      destruct EA as [doms ->]. cbn [obind]. eauto. }
    destruct HC as [z HC]. exists z. split; auto. intros m x b Hx Hb. pose proof (apply_dir_total n A sd w fly z m true x b HC HT Hx Hb) as [x1 E1].
    destruct m; cbn [schwarz_apply]; [eauto|eauto|]. rewrite E1. cbn [obind]. apply (apply_dir_total n A sd w fly); auto. apply (apply_dir_mult n A sd w fly) in E1; auto. apply E1.
  Qed.
  (** *** onTheFly: the same result as with stored solvers *)
  Lemma sweep_fly (A : smat) w additive b : forall doms (s : @sst R), Forall (ready A false) doms -> sweep SD A w additive b true (map (fun dom => (fst dom, None)) doms) s = sweep SD A w additive b false doms s.
  Proof.
    induction doms as [|[d o] t IH]; intros s HR; cbn [sweep map]; auto. inversion HR; subst. destruct (H1 eq_refl) as [l [E1 E2]]. cbn in E1, E2. subst o.
    assert (E : one_domain SD A w additive b true (d, None) s = one_domain SD A w additive b false (d, Some l) s) by (unfold one_domain; cbn [fst snd]; rewrite E2; reflexivity).
    cbn [fst]. rewrite E. destruct (one_domain SD A w additive b false (d, Some l) s) as [s1| |]; cbn [obind]; auto.
  Qed.
  Theorem C55_on_the_fly (A : smat) sd w z : schwarz_ctor SD A sd w false = Ok z ->
    exists zf, schwarz_ctor SD A sd w true = Ok zf /\ forall m x b, schwarz_apply SD m zf x b = schwarz_apply SD m z x b.
  Proof.
    unfold schwarz_ctor. destruct (forallb _ sd); [|discriminate]. intros H. destruct (assemble SD A false sd) as [doms| |] eqn:E; cbn [obind] in H; try discriminate. injection H as <-.
    destruct (assemble_ready _ _ _ _ E) as [E1 E2].
    assert (EF : assemble SD A true sd = Ok (map (fun dom => (fst dom, None)) doms)).
    { rewrite <- E1. clear. induction doms as [|[d o] t IH]; cbn [assemble map]; auto. rewrite IH. reflexivity. }
    rewrite EF. cbn [obind]. eexists. split; [reflexivity|]. intros m x b.
    assert (ED : forall fwd x, apply_dir SD m (mkSchwarz SD A (map (fun dom => (fst dom, None)) doms) w (max_size sd) true) fwd x b = apply_dir SD m (mkSchwarz SD A doms w (max_size sd) false) fwd x b).
    { intros fwd y. unfold apply_dir. cbn [z_A z_w z_doms z_max z_fly]. f_equal. destruct fwd; [|rewrite <- map_rev]; apply sweep_fly; auto. apply Forall_rev. auto. }
    destruct m; cbn [schwarz_apply]; rewrite ?ED; auto. destruct (apply_dir SD SymmetricMultiplicative (mkSchwarz SD A doms w (max_size sd) false) true x b); cbn [obind]; auto.
  Qed.
  (** *** Solutions stay: if A x = b and the subdomain solvers map 0 to 0, apply returns x *)
  Definition zero_to_zero (A : smat) (d : list nat) : Prop := forall z, local_solution SD A d (repeat r0 (length d)) z -> z = repeat r0 (length d).
  Lemma res_zero n (A : smat) b x d : (forall i, i < n -> sum n (fun j => den A i j * vget x j) = vget b i) -> Forall (fun r => r < n) d -> map (residual n A b x) d = repeat r0 (length d).
  Proof.
    intros HS HF. induction d as [|r t IH]; cbn; auto. inversion HF; subst. f_equal; [unfold residual; rewrite HS by auto; apply rsub_diag|apply IH; auto].
  Qed.
  Lemma extend_zero d m i : extend d (repeat (@r0 R) m) i = r0.
  Proof. unfold extend, vget. destruct (pos d i); auto. apply nth_repeat. Qed.
  Theorem C55_solution_stays n A sd w fly z m x b x' : constructed n A sd w fly z -> Forall (zero_to_zero A) sd -> length x = n -> length b = n ->
    (forall i, i < n -> sum n (fun j => den A i j * vget x j) = vget b i) -> schwarz_apply SD m z x b = Ok x' -> x' = x.
  Proof.
    intros HC HZ Hx Hb HS H. pose proof (proj2 (proj2 HC)) as HD.
    assert (MS : forall ds y y', Forall (domain_wf n) ds -> Forall (zero_to_zero A) ds -> y = x -> length y' = n -> mult_steps SD n A w b ds y y' -> y' = x).
    { intros ds y y' H1 H2 H3 H4 M. revert H3. induction M as [y|d ds y z1 x1 y' M1 M2 M3 M4 IH]; auto. intros ->.
      pose proof (Forall_inv H1) as D1. pose proof (Forall_inv_tail H1) as D2. pose proof (Forall_inv H2) as D3. pose proof (Forall_inv_tail H2) as D4.
      rewrite (res_zero n) in M1 by (auto; apply D1). apply D3 in M1. apply IH; auto. apply vec_ext; [lia|]. intros i Hi. rewrite M3 by lia. rewrite M1, extend_zero. ncring. }
    assert (MP : forall ds y y', Forall (domain_wf n) ds -> Forall (zero_to_zero A) ds -> y = x -> length y' = n -> mult_steps_powers SD n A w b ds y y' -> y' = x).
    { intros ds y y' H1 H2 H3 H4 M. revert H3. induction M as [y|d ds y z1 x1 y' M1 M2 M3 M4 IH]; auto. intros ->.
      pose proof (Forall_inv H1) as D1. pose proof (Forall_inv_tail H1) as D2. pose proof (Forall_inv H2) as D3. pose proof (Forall_inv_tail H2) as D4.
      rewrite (res_zero n) in M1 by (auto; apply D1). apply D3 in M1. apply IH; auto. apply vec_ext; [lia|]. intros i Hi. rewrite M3 by lia. rewrite M1. unfold extend_by.
      destruct (pos d i); [unfold vget; rewrite nth_repeat|]; ncring. }
    assert (HA2 : Forall (domain_wf n) (sd ++ rev sd)) by (apply Forall_app; split; auto; apply Forall_rev; auto).
    assert (HZ2 : Forall (zero_to_zero A) (sd ++ rev sd)) by (apply Forall_app; split; auto; apply Forall_rev; auto).
    destruct m.
    - destruct (C55_additive n A sd w fly z x b x' HC Hx Hb H) as [L [zs [Z1 Z2]]]. apply vec_ext; [lia|]. intros i Hi. rewrite Z2 by lia.
      assert (EZ : lsum (map (fun p => extend (fst p) (snd p) i) (combine sd zs)) = r0).
      { clear - Z1 HZ HD HS. induction Z1 as [|d y ds zs Y1 Y2 IH]; cbn; auto. rewrite (res_zero n) in Y1 by (auto; apply (Forall_inv HD)). apply (Forall_inv HZ) in Y1. apply Forall_inv_tail in HZ. apply Forall_inv_tail in HD. rewrite Y1, extend_zero, IH by auto. ncring. }
      rewrite EZ. ncring.
    - destruct (whole SD) eqn:EW.
      + apply (C55_multiplicative_dynamic n A sd w fly z x b x') in H; auto. destruct H as [L M]. apply (MP sd x x'); auto.
      + apply (C55_multiplicative n A sd w fly z x b x') in H; auto. destruct H as [L M]. apply (MS sd x x'); auto.
    - destruct (whole SD) eqn:EW.
      + apply (C55_multiplicative_dynamic n A sd w fly z x b x') in H; auto. destruct H as [L M]. apply (MP (sd ++ rev sd) x x'); auto.
      + apply (C55_multiplicative n A sd w fly z x b x') in H; auto. destruct H as [L M]. apply (MS (sd ++ rev sd) x x'); auto.
  Qed.
  (** *** Sums over a subdomain *)
  Lemma sum_pos n d (g : nat -> R) : NoDup d -> Forall (fun r => r < n) d -> sum n (fun j => match pos d j with Some l => g l | None => r0 end) = sum (length d) g.
  Proof.
    revert g. induction d as [|r t IH]; intros g HN HF; cbn [pos length]; [apply sum_0|]. inversion HN; inversion HF; subst.
    rewrite (sum_ext n _ (fun j => ind (j =? r) (g 0%nat) + match pos t j with Some l => g (S l) | None => r0 end)).
    - rewrite sum_add, (IH (fun l => g (S l))) by auto. rewrite (sum_single n r) by (first [assumption|intros x _ Hx; unfold ind; destruct (Nat.eqb_spec x r); [congruence|auto]]). rewrite Nat.eqb_refl.
      change (S (length t)) with (1 + length t)%nat. rewrite sum_split. cbn. ncring.
    - intros j Hj. unfold ind. rewrite (Nat.eqb_sym j r). destruct (Nat.eqb_spec r j) as [->|].
      + rewrite pos_notin by auto. ncring.
      + destruct (pos t j); cbn [option_map]; ncring.
  Qed.
  (** *** Exact subdomain solvers *)
  (** the subdomain solver solves A_dd z = r *)
  Definition exact_solver (A : smat) (d : list nat) : Prop := forall r z, local_solution SD A d r z ->
    forall k, k < length d -> sum (length d) (fun l => den A (nth k d 0%nat) (nth l d 0%nat) * vget z l) = vget r k.
  Lemma step_residual n (A : smat) b x x1 d z k : domain_wf n d -> length x1 = n -> (forall i, i < n -> vget x1 i = vget x i + extend d z i) -> k < length d ->
    residual n A b x1 (nth k d 0%nat) = residual n A b x (nth k d 0%nat) - sum (length d) (fun l => den A (nth k d 0%nat) (nth l d 0%nat) * vget z l).
  Proof.
    intros HD HL HX Hk. pose proof (domain_nodup n d HD) as HN. unfold residual. set (i := nth k d 0%nat).
    rewrite (sum_ext n (fun j => den A i j * vget x1 j) (fun j => den A i j * vget x j + match pos d j with Some l => den A i (nth l d 0%nat) * vget z l | None => r0 end)).
    - rewrite sum_add, (sum_pos n d (fun l => den A i (nth l d 0%nat) * vget z l)) by (auto; apply HD). ncring.
    - intros j Hj. rewrite HX by auto. unfold extend. destruct (pos d j) as [l|] eqn:EP; [|ncring]. apply pos_some in EP. destruct EP as [_ ->]. ncring.
  Qed.
  Lemma mult_snoc n A w b d : forall ds x x', mult_steps SD n A w b (ds ++ [d]) x x' ->
    exists y z, local_solution SD A d (map (residual n A b y) d) z /\ forall i, i < n -> vget x' i = vget y i + w * extend d z i.
  Proof.
    induction ds as [|e t IH]; intros x x' M; cbn [app] in M; inversion M as [|? ? ? z x1 ? M1 M2 M3 M4]; subst; eauto. inversion M4; subst. eauto.
  Qed.
  Lemma powers_snoc n A w b d : forall ds x x', mult_steps_powers SD n A w b (ds ++ [d]) x x' ->
    exists y z, local_solution SD A d (map (residual n A b y) d) z /\ forall i, i < n -> vget x' i = vget y i + extend_by (fun k => pow w (S k)) d z i.
  Proof.
    induction ds as [|e t IH]; intros x x' M; cbn [app] in M; inversion M as [|? ? ? z x1 ? M1 M2 M3 M4]; subst; eauto. inversion M4; subst. eauto.
  Qed.
  (** relaxation 1 and an exact solver on the subdomain treated last: the equations of that subdomain hold *)
  Theorem C55_exact n A w fly z sd d x b x' : constructed n A (sd ++ [d]) w fly z -> w = r1 -> exact_solver A d -> length x = n -> length b = n ->
    schwarz_apply SD Multiplicative z x b = Ok x' -> forall i, In i d -> sum n (fun j => den A i j * vget x' j) = vget b i.
  Proof.
    intros HC Hw HE Hx Hb H i Hi. destruct (In_nth d i 0%nat Hi) as [k [Hk Ek]].
    assert (HD : domain_wf n d). { destruct HC as [_ [_ HC]]. rewrite Forall_forall in HC. apply HC. apply in_or_app. right. left. auto. }
    assert (G : exists y z1, local_solution SD A d (map (residual n A b y) d) z1 /\ length x' = n /\ forall i, i < n -> vget x' i = vget y i + extend d z1 i).
    { destruct (whole SD) eqn:EW.
      - apply (C55_multiplicative_dynamic n A (sd ++ [d]) w fly) in H; auto. destruct H as [L M]. apply powers_snoc in M. destruct M as [y [z1 [M1 M2]]]. exists y, z1. repeat (split; auto).
        intros j Hj. rewrite M2 by auto. f_equal. unfold extend_by, extend. destruct (pos d j) as [m|]; auto.
        assert (PO : forall q, pow (@r1 R) q = r1) by (induction q as [|q IHq]; cbn; [auto|rewrite IHq; apply rmul_1_l]). rewrite Hw, PO. apply rmul_1_l.
      - apply (C55_multiplicative n A (sd ++ [d]) w fly) in H; auto. destruct H as [L M]. apply mult_snoc in M. destruct M as [y [z1 [M1 M2]]]. exists y, z1. repeat (split; auto).
        intros j Hj. rewrite M2, Hw by auto. ncring. }
    destruct G as [y [z1 [G1 [G2 G3]]]]. pose proof (step_residual n A b y x' d z1 k HD G2 G3 Hk) as E. rewrite (HE _ _ G1 k Hk) in E.
    assert (E2 : vget (map (residual n A b y) d) k = residual n A b y (nth k d 0%nat)).
    { unfold vget. rewrite nth_indep with (d' := residual n A b y 0%nat) by (rewrite map_length; lia). apply map_nth. }
    rewrite E2, rsub_diag, Ek in E. unfold residual in E. symmetry. apply rsub_eq0. exact E.
  Qed.
  (** *** Symmetry *)
  Section Sym.
    Variable star : R -> R.
    Hypothesis HSt : involution star.
    (** the subdomain solver for the rows d is a Hermitian operator *)
    Definition herm_solver (A : smat) (d : list nat) : Prop := forall r z r' z', local_solution SD A d r z -> local_solution SD A d r' z' ->
      inner star (length d) (vget z) (vget r') = inner star (length d) (vget r) (vget z').
    Definition dom_scheme (A : smat) (n : nat) (w : R) (d : list nat) : @scheme R := fun r e => exists z, local_solution SD A d (map r d) z /\ forall i, i < n -> e i = w * extend d z i.
    Lemma vget_map_dom (r : nat -> R) d k : k < length d -> vget (map r d) k = r (nth k d 0%nat).
    Proof. intros H. unfold vget. rewrite nth_indep with (d' := r 0%nat) by (rewrite map_length; auto). apply map_nth. Qed.
    Lemma inner_extend_l n d (z : vec) (r : nat -> R) : domain_wf n d -> inner star n (extend d z) r = inner star (length d) (vget z) (vget (map r d)).
    Proof.
      intros HD. unfold inner. rewrite (sum_ext n _ (fun i => match pos d i with Some k => star (vget z k) * r (nth k d 0%nat) | None => r0 end)).
      2:{ intros i Hi. unfold extend. destruct (pos d i) as [k|] eqn:EP; [apply pos_some in EP; destruct EP as [_ ->]; reflexivity|]. rewrite (star_0 star HSt). apply rmul_0_l. }
      rewrite (sum_pos n d (fun k => star (vget z k) * r (nth k d 0%nat))) by (first [exact (domain_nodup n d HD)|apply HD]). apply sum_ext. intros k Hk. rewrite vget_map_dom by auto. reflexivity.
    Qed.
    Lemma inner_extend_r n d (z : vec) (r : nat -> R) : domain_wf n d -> inner star n r (extend d z) = inner star (length d) (vget (map r d)) (vget z).
    Proof.
      intros HD. unfold inner. rewrite (sum_ext n _ (fun i => match pos d i with Some k => star (r (nth k d 0%nat)) * vget z k | None => r0 end)).
      2:{ intros i Hi. unfold extend. destruct (pos d i) as [k|] eqn:EP; [apply pos_some in EP; destruct EP as [_ ->]; reflexivity|]. apply rmul_0_r. }
      rewrite (sum_pos n d (fun k => star (r (nth k d 0%nat)) * vget z k)) by (first [exact (domain_nodup n d HD)|apply HD]). apply sum_ext. intros k Hk. rewrite vget_map_dom by auto. reflexivity.
    Qed.
    Lemma inner_scale n w (x y : nat -> R) : central w -> star w = w -> inner star n (fun i => w * x i) y = w * inner star n x y /\ inner star n x (fun i => w * y i) = w * inner star n x y.
    Proof.
      intros Hw Sw. unfold inner. rewrite <- !sum_mul_l. split; apply sum_ext; intros i _.
      - rewrite (star_mul star HSt), Sw, <- Hw. symmetry. apply rmul_assoc.
      - rewrite !rmul_assoc. rewrite (Hw (star (x i))). reflexivity.
    Qed.
    Lemma dom_adjoint A n w d : central w -> star w = w -> domain_wf n d -> herm_solver A d -> adjoint_schemes star n (dom_scheme A n w d) (dom_scheme A n w d).
    Proof.
      intros Hw Sw HD HH r e r' e' [z [Z1 Z2]] [u [U1 U2]].
      rewrite (inner_ext star n e r' (fun i => w * extend d z i) r') by auto. rewrite (inner_ext star n r e' r (fun i => w * extend d u i)) by auto.
      rewrite (proj1 (inner_scale n w (extend d z) r' Hw Sw)), (proj2 (inner_scale n w r (extend d u) Hw Sw)). f_equal. rewrite inner_extend_l, inner_extend_r by auto. apply HH; auto.
    Qed.
    Lemma mult_to_steps n (A : smat) w b : forall ds x x', mult_steps SD n A w b ds x x' -> steps n (den A) (vget b) (map (dom_scheme A n w) ds) (vget x) (vget x').
    Proof.
      intros ds x x' M. induction M as [x|d ds x z x1 x' M1 M2 M3 M4 IH]; [constructor; auto|]. cbn [map].
      apply (st_cons n (den A) (vget b) (dom_scheme A n w d) _ (vget x) (residual n A b x) (fun i => w * extend d z i) (vget x1)); auto. exists z. auto.
    Qed.
    Lemma schemes_adjoint A n w ds : central w -> star w = w -> Forall (domain_wf n) ds -> Forall (herm_solver A) ds -> Forall2 (adjoint_schemes star n) (map (dom_scheme A n w) ds) (map (dom_scheme A n w) ds).
    Proof. intros Hw Sw H1 H2. induction ds as [|d ds IH]; cbn; constructor; inversion H1; inversion H2; subst; auto. apply dom_adjoint; auto. Qed.
    (** Hermitian A and Hermitian subdomain solvers: SymmetricMultiplicativeSchwarzMode from x = 0 is a Hermitian operator, and so is AdditiveSchwarzMode;
        MultiplicativeSchwarzMode on the reversed list of subdomains is the adjoint of MultiplicativeSchwarzMode. *)
    Theorem C55_symmetric n A sd w fly z : constructed n A sd w fly z -> whole SD = false -> central w -> star w = w -> hermitian star n (den A) -> Forall (herm_solver A) sd ->
      forall b c x y, length b = n -> length c = n ->
      (schwarz_apply SD SymmetricMultiplicative z (repeat r0 n) b = Ok x -> schwarz_apply SD SymmetricMultiplicative z (repeat r0 n) c = Ok y -> inner star n (vget x) (vget c) = inner star n (vget b) (vget y)) /\
      (schwarz_apply SD Additive z (repeat r0 n) b = Ok x -> schwarz_apply SD Additive z (repeat r0 n) c = Ok y -> inner star n (vget x) (vget c) = inner star n (vget b) (vget y)) /\
      (forall fly' z', constructed n A (rev sd) w fly' z' ->
       schwarz_apply SD Multiplicative z (repeat r0 n) b = Ok x -> schwarz_apply SD Multiplicative z' (repeat r0 n) c = Ok y -> inner star n (vget x) (vget c) = inner star n (vget b) (vget y)).
    Proof.
      intros HC HWh Hw Sw HA HF b c x y Hb Hc. pose proof (proj2 (proj2 HC)) as HD. assert (LZ : length (repeat (@r0 R) n) = n) by apply repeat_length.
      assert (VZ : forall i, vget (repeat (@r0 R) n) i = r0) by (intros i; unfold vget; apply nth_repeat).
      assert (ADJ : forall ds x y, Forall (domain_wf n) ds -> Forall (herm_solver A) ds -> mult_steps SD n A w b ds (repeat r0 n) x -> mult_steps SD n A w c (rev ds) (repeat r0 n) y -> inner star n (vget x) (vget c) = inner star n (vget b) (vget y)).
      { intros ds u v D1 D2 M1 M2. apply mult_to_steps in M1. apply mult_to_steps in M2. rewrite map_rev in M2.
        apply (steps_adjoint star HSt n (den A) (map (dom_scheme A n w) ds) (map (dom_scheme A n w) ds) (vget b) (vget c) (vget (repeat r0 n)) (vget (repeat r0 n))); auto.
        - apply schemes_adjoint; auto.
        - apply (steps_herm star n (den A)); auto. }
      split; [|split].
      - intros H1 H2. apply (C55_multiplicative n A sd w fly) in H1; auto. apply (C55_multiplicative n A sd w fly) in H2; auto. destruct H1 as [_ H1]. destruct H2 as [_ H2]. cbn in H1, H2.
        apply (ADJ (sd ++ rev sd)); auto; [apply Forall_app; split; auto; apply Forall_rev; auto|apply Forall_app; split; auto; apply Forall_rev; auto|]. rewrite rev_app_distr, rev_involutive. exact H2.
      - intros H1 H2. apply (C55_additive n A sd w fly) in H1; auto. apply (C55_additive n A sd w fly) in H2; auto. destruct H1 as [_ [zs [Z1 Z2]]]. destruct H2 as [_ [us [U1 U2]]].
        assert (RZ : forall v d, Forall (fun r => r < n) d -> map (residual n A v (repeat r0 n)) d = map (vget v) d).
        { intros v d _. apply map_ext. intros i. unfold residual. rewrite (sum_ext n _ (fun _ => r0)) by (intros; rewrite VZ; apply rmul_0_r). rewrite sum_0. ncring. }
        rewrite (inner_ext star n (vget x) (vget c) (fun i => w * lsum (map (fun p => extend (fst p) (snd p) i) (combine sd zs))) (vget c)) by (auto; intros i Hi; rewrite Z2, VZ by auto; ncring).
        rewrite (inner_ext star n (vget b) (vget y) (vget b) (fun i => w * lsum (map (fun p => extend (fst p) (snd p) i) (combine sd us)))) by (auto; intros i Hi; rewrite U2, VZ by auto; ncring).
        rewrite (proj1 (inner_scale n w _ _ Hw Sw)), (proj2 (inner_scale n w _ _ Hw Sw)). f_equal. clear Z2 U2 HC. revert us U1. induction Z1 as [|d u ds zs P1 P2 IH]; intros us U1; destruct us as [|u' us]; try solve [inversion U1].
        + cbn. unfold inner. rewrite (sum_ext n _ (fun _ => r0)) by (intros; rewrite (star_0 star HSt); apply rmul_0_l). rewrite (sum_ext n (fun i => star (vget b i) * r0) (fun _ => r0)) by (intros; apply rmul_0_r). reflexivity.
        + assert (Q : local_solution SD A d (map (residual n A c (repeat r0 n)) d) u' /\ Forall2 (fun d y => local_solution SD A d (map (residual n A c (repeat r0 n)) d) y) ds us) by (inversion U1; auto). destruct Q as [Q1 Q2].
          pose proof (Forall_inv HD) as D1. pose proof (Forall_inv_tail HD) as D2. pose proof (Forall_inv HF) as F1. pose proof (Forall_inv_tail HF) as F2. specialize (IH F2 D2 us Q2).
          cbn [combine map fst snd lsum]. unfold inner in *.
          rewrite (sum_ext n _ (fun i => star (extend d u i) * vget c i + star (lsum (map (fun p => extend (fst p) (snd p) i) (combine ds zs))) * vget c i)) by (intros; rewrite (star_add star HSt); ncring).
          rewrite (sum_ext n (fun i => star (vget b i) * _) (fun i => star (vget b i) * extend d u' i + star (vget b i) * lsum (map (fun p => extend (fst p) (snd p) i) (combine ds us)))) by (intros; ncring).
          rewrite !sum_add. f_equal; [|exact IH]. change (inner star n (extend d u) (vget c) = inner star n (vget b) (extend d u')). rewrite inner_extend_l, inner_extend_r by auto.
          rewrite RZ in P1, Q1 by apply D1. apply F1; auto.
      - intros fly' z' HC' H1 H2. apply (C55_multiplicative n A sd w fly) in H1; auto. apply (C55_multiplicative n A (rev sd) w fly') in H2; auto. destruct H1 as [_ H1]. destruct H2 as [_ H2]. cbn in H1, H2. apply (ADJ sd); auto.
    Qed.
  End Sym.
End Proofs.

(** ** ILU0SubdomainSolver *)
Section Ilu0.
  Context {R : ring}.
  Local Open Scope ring_scope_istl.
  Local Notation vec := (list R).
  Local Notation smat := (smat R).

  Lemma pos_mono d : StronglySorted lt d -> forall j j' k k', j < j' -> pos d j = Some k -> pos d j' = Some k' -> k < k'.
  Proof.
    induction 1 as [|r t HS IH HF]; intros j j' k k' Hj E1 E2; cbn in *; [discriminate|]. rewrite Forall_forall in HF.
    destruct (Nat.eqb_spec r j) as [Ej|Ej], (Nat.eqb_spec r j') as [Ej'|Ej']; try lia; try subst j; try subst j'.
    - injection E1 as <-. destruct (pos t j'); [|discriminate]. injection E2 as <-. lia.
    - exfalso. destruct (pos t j) as [m|] eqn:E; [|discriminate]. apply pos_some in E. destruct E as [E F]. assert (In j t) by (rewrite <- F; apply nth_In; auto). specialize (HF _ H). lia.
    - destruct (pos t j) as [m|] eqn:E; [|discriminate]. destruct (pos t j') as [m'|] eqn:E'; [|discriminate]. injection E1 as <-. injection E2 as <-. specialize (IH j j' m m' Hj E E'). lia.
  Qed.
  Definition local_row (d : list nat) (row : srow R) : srow R := flat_map (fun e : nat * R => match pos d (fst e) with Some k => [(k, snd e)] | None => nil end) row.
  Lemma set_ins_end k l : Forall (fun x => x < k) l -> set_ins k l = l ++ [k].
  Proof. induction 1 as [|x l Hx Hl IH]; cbn; auto. destruct (Nat.ltb_spec k x); [lia|]. destruct (Nat.eqb_spec k x); [lia|]. rewrite IH. reflexivity. Qed.
  Lemma local_row_in d row k a : In (k, a) (local_row d row) <-> exists j, In (j, a) row /\ pos d j = Some k.
  Proof.
    unfold local_row. rewrite in_flat_map. split.
    - intros [[j b] [H1 H2]]. cbn in H2. destruct (pos d j) as [m|] eqn:E; [|destruct H2]. destruct H2 as [H2|[]]. injection H2 as <- <-. eauto.
    - intros [j [H1 H2]]. exists (j, a). split; auto. cbn. rewrite H2. left. auto.
  Qed.
  Lemma local_row_lt d row : StronglySorted lt d -> StronglySorted lt (map fst row) -> forall s : list nat, (forall x e k, In x s -> In e row -> pos d (fst e) = Some k -> x < k) ->
    fold_left (fun s (e : nat * R) => match pos d (fst e) with Some k => set_ins k s | None => s end) row s = s ++ map fst (local_row d row).
  Proof.
    intros HD. induction row as [|[j a] t IH]; intros HS s HB; cbn [fold_left map fst]; [unfold local_row; cbn; now rewrite app_nil_r|]. cbn in HS. inversion HS as [|? ? HS' HF]; subst.
    unfold local_row. cbn [flat_map fst]. destruct (pos d j) as [k|] eqn:E.
    - rewrite IH; auto.
      + rewrite set_ins_end; [|rewrite Forall_forall; intros x Hx; apply (HB x (j, a) k); cbn; auto]. rewrite <- app_assoc. reflexivity.
      + intros x e k' Hx He Ek. rewrite set_ins_end in Hx by (rewrite Forall_forall; intros y Hy; apply (HB y (j, a) k); cbn; auto). apply in_app_or in Hx. destruct Hx as [Hx|[<-|[]]].
        * apply (HB x e k'); cbn; auto.
        * apply (pos_mono d HD j (fst e) k k'); auto. rewrite Forall_forall in HF. apply HF, in_map. auto.
    - apply IH; auto. intros x e k' Hx He. apply HB; cbn; auto.
  Qed.
  Lemma local_row_eq d row : StronglySorted lt d -> StronglySorted lt (map fst row) -> combine (local_pattern d row) (local_values d row) = local_row d row.
  Proof.
    intros HD HS. unfold local_pattern. rewrite (local_row_lt d row HD HS nil) by (intros x e k []). cbn [app].
    clear. unfold local_values, local_row. induction row as [|[j a] t IH]; cbn; auto. destruct (pos d j); cbn; [rewrite IH|]; auto.
  Qed.
  Lemma local_row_sorted d row : StronglySorted lt d -> StronglySorted lt (map fst row) -> row_wf (length d) (local_row d row).
  Proof.
    intros HD HS. split.
    - induction row as [|[j a] t IH]; cbn; [constructor|]. cbn in HS. inversion HS as [|? ? HS' HF]; subst. unfold local_row in *. destruct (pos d j) as [k|] eqn:E; cbn; auto. constructor; auto.
      rewrite Forall_forall. intros x Hx. apply in_map_iff in Hx. destruct Hx as [[k' b] [<- Hx]]. apply (local_row_in d t k' b) in Hx. destruct Hx as [j' [H1 H2]]. cbn.
      apply (pos_mono d HD j j' k k'); auto. rewrite Forall_forall in HF. apply HF. apply (in_map fst _ _ H1).
    - rewrite Forall_forall. intros x Hx. apply in_map_iff in Hx. destruct Hx as [[k b] [<- Hx]]. apply local_row_in in Hx. destruct Hx as [j [_ H2]]. apply pos_some in H2. cbn. apply H2.
  Qed.
  Lemma local_row_stored d row c : NoDup d -> c < length d -> In c (map fst (local_row d row)) <-> In (nth c d 0%nat) (map fst row).
  Proof.
    intros HN Hc. split; intros H; apply in_map_iff in H; destruct H as [[k a] [E H]]; cbn in E; subst k.
    - apply local_row_in in H. destruct H as [j [H1 H2]]. apply pos_some in H2. destruct H2 as [_ ->]. apply (in_map fst _ _ H1).
    - apply in_map_iff. exists (c, a). split; auto. apply local_row_in. exists (nth c d 0%nat). split; auto. apply pos_nth; auto.
  Qed.
  Lemma local_row_den d row c : StronglySorted lt d -> StronglySorted lt (map fst row) -> c < length d -> denrow (local_row d row) c = denrow row (nth c d 0%nat).
  Proof.
    intros HD HS Hc. pose proof (ssorted_NoDup _ HD) as HN. destruct (in_dec Nat.eq_dec (nth c d 0%nat) (map fst row)) as [H|H].
    - apply in_map_iff in H. destruct H as [[k a] [E H]]. cbn in E. subst k. rewrite (denrow_in row (nth c d 0%nat) a) by (auto using ssorted_NoDup). apply denrow_in.
      + apply ssorted_NoDup. apply (local_row_sorted d row); auto.
      + apply local_row_in. exists (nth c d 0%nat). split; auto. apply pos_nth; auto.
    - rewrite (denrow_notin row) by auto. apply denrow_notin. rewrite local_row_stored; auto.
  Qed.
  (** the local matrix: the rows and columns of the subdomain *)
  Definition restriction_of (A : smat) (d : list nat) (L : smat) : Prop := mat_wf (length d) (length d) L /\
    forall r c, r < length d -> c < length d -> den L r c = den A (nth r d 0%nat) (nth c d 0%nat) /\ (instored L r c <-> instored A (nth r d 0%nat) (nth c d 0%nat)).
  Theorem C55_local_matrix n A d : mat_wf n n A -> domain_wf n d -> exists L, copyToLocalMatrix A d = Ok L /\ restriction_of A d L.
  Proof.
    intros HW [HD HF]. assert (E : forall todo, Forall (fun r => r < n) todo -> local_rows A d todo = Ok (map (fun r => local_row d (nth r A nil)) todo)).
    { induction todo as [|r t IH]; intros HT; cbn [local_rows map]; auto. inversion HT; subst. destruct (nth_error A r) as [row|] eqn:EA; [|apply nth_error_None in EA; pose proof (proj1 HW); lia].
      rewrite IH by auto. cbn [obind]. assert (EN : nth r A nil = row) by (apply nth_error_nth; auto). rewrite EN. rewrite local_row_eq; auto. rewrite <- EN. apply (mat_wf_row n n A r HW). }
    exists (map (fun r => local_row d (nth r A nil)) d). split; [apply E; auto|].
    assert (EN : forall r, r < length d -> nth r (map (fun r => local_row d (nth r A nil)) d) nil = local_row d (nth (nth r d 0%nat) A nil)).
    { intros r Hr. rewrite nth_indep with (d' := (fun r => local_row d (nth r A nil)) 0%nat) by (rewrite map_length; auto). apply (map_nth (fun r => local_row d (nth r A nil))). }
    split.
    - split; [apply map_length|]. rewrite Forall_forall. intros row HI. apply in_map_iff in HI. destruct HI as [r [<- _]]. apply local_row_sorted; auto. apply (mat_wf_row n n A r HW).
    - intros r c Hr Hc. unfold den, instored. rewrite EN by auto. split; [apply local_row_den|apply local_row_stored]; auto using ssorted_NoDup. apply (mat_wf_row n n A _ HW).
  Qed.

  (** *** The triangular solves on arrays longer than the factorization *)
  Lemma upd_app {T} (v p : list T) i a : i < length v -> upd (v ++ p) i a = upd v i a ++ p.
  Proof. revert i. induction v as [|b v IH]; intros [|i] H; cbn in *; try lia; auto. rewrite IH by lia. auto. Qed.
  Lemma fwd_pad {B X E} (f : nat -> list (nat * B) -> list X -> E -> outcome (X * E)) p n : forall rows k v e, length v = n -> k + length rows <= n ->
    (forall i row v e, In row rows -> length v = n -> f i row (v ++ p) e = f i row v e) -> fwd f k rows (v ++ p) e = obind (fwd f k rows v e) (fun r => Ok (fst r ++ p, snd r)).
  Proof.
    induction rows as [|row t IH]; intros k v e Hv Hk Hf; cbn [fwd length] in *; [reflexivity|]. rewrite Hf by (cbn; auto). destruct (f k row v e) as [r| |]; cbn [obind]; auto.
    rewrite upd_app by lia. apply IH; [rewrite upd_length; auto|lia|]. intros; apply Hf; cbn; auto.
  Qed.
  Lemma bwd_length {B X E} (f : nat -> list (nat * B) -> list X -> E -> outcome (X * E)) : forall rows k v e r, bwd f k rows v e = Ok r -> length (fst r) = length v.
  Proof.
    induction rows as [|row t IH]; intros k v e r H; cbn [bwd] in H; [injection H as <-; auto|]. destruct (bwd f (S k) t v e) as [r1| |] eqn:E1; cbn [obind] in H; try discriminate.
    destruct (f k row (fst r1) (snd r1)); cbn [obind] in H; try discriminate. injection H as <-. cbn. rewrite upd_length. eauto.
  Qed.
  Lemma bwd_pad {B X E} (f : nat -> list (nat * B) -> list X -> E -> outcome (X * E)) p n : forall rows k v e, length v = n -> k + length rows <= n ->
    (forall i row v e, i < n -> In row rows -> length v = n -> f i row (v ++ p) e = f i row v e) -> bwd f k rows (v ++ p) e = obind (bwd f k rows v e) (fun r => Ok (fst r ++ p, snd r)).
  Proof.
    induction rows as [|row t IH]; intros k v e Hv Hk Hf; cbn [bwd length] in *; [reflexivity|]. rewrite IH by (auto; try lia; intros; apply Hf; cbn; auto).
    destruct (bwd f (S k) t v e) as [r| |] eqn:E1; cbn [obind fst snd]; auto. apply bwd_length in E1. rewrite Hf by (cbn; auto; lia). destruct (f k row (fst r) (snd r)); cbn [obind fst snd]; auto.
    rewrite upd_app by lia. reflexivity.
  Qed.
  Lemma lower_pad n i (row : srow R) (v p : vec) : length v = n -> Forall (fun j => j < n) (map fst row) -> forall s, lower_loop r0 blk_mmv i row (v ++ p) s = lower_loop r0 blk_mmv i row v s.
  Proof. intros Hv. induction row as [|[j a] t IH]; intros HF s; cbn [lower_loop]; auto. inversion HF; subst. cbn in *. destruct (j <? i); auto. rewrite app_nth1 by auto. apply IH; auto. Qed.
  Lemma upper_pad n i (row : srow R) (v p : vec) : length v = n -> Forall (fun j => j < n) (map fst row) -> forall s, upper_loop r0 blk_mmv i row (v ++ p) s = upper_loop r0 blk_mmv i row v s.
  Proof. intros Hv. induction row as [|[j a] t IH]; intros HF s; cbn [upper_loop]; auto. inversion HF; subst. cbn in *. destruct (i <? j); auto. rewrite app_nth1 by auto. apply IH; auto. Qed.
  Lemma backsolve_pad n (F : smat) (v d p q : vec) : mat_wf n n F -> length v = n -> length d = n ->
    ilu_backsolve F (v ++ p) (d ++ q) = obind (ilu_backsolve F v d) (fun z => Ok (z ++ p)).
  Proof.
    intros HW Hv Hd. pose proof (proj1 HW) as HL. assert (HR : forall row, In row F -> Forall (fun j => j < n) (map fst row)) by (intros row HI; pose proof (proj2 HW) as H; rewrite Forall_forall in H; apply (H _ HI)).
    unfold ilu_backsolve, ilu_lower, ubltsolve, bltsolve_gen.
    set (f1 := fun (i : nat) (row : list (nat * R)) (v0 : vec) (_ : unit) => let (rhs, rest) := lower_loop r0 blk_mmv i row v0 (nth i (d ++ q) r0) in match rest with [] => UB | (_, a) :: _ => obind (Ok rhs) (fun u : R => Ok (u, tt)) end).
    set (f2 := fun (i : nat) (row : list (nat * R)) (v0 : vec) (_ : unit) => let (rhs, rest) := lower_loop r0 blk_mmv i row v0 (nth i d r0) in match rest with [] => UB | (_, a) :: _ => obind (Ok rhs) (fun u : R => Ok (u, tt)) end).
    assert (E1 : fwd f1 0 F (v ++ p) tt = obind (fwd f2 0 F v tt) (fun r => Ok (fst r ++ p, snd r))).
    { assert (EX : forall rows k w, incl rows F -> k + length rows <= n -> length w = n -> fwd f1 k rows (w ++ p) tt = fwd f2 k rows (w ++ p) tt).
      { induction rows as [|row t IH]; intros k w HI Hk Hw; cbn [fwd length] in *; auto. assert (ER : f1 k row (w ++ p) tt = f2 k row (w ++ p) tt) by (unfold f1, f2; rewrite (app_nth1 d q) by lia; reflexivity).
        rewrite ER. destruct (f2 k row (w ++ p) tt) as [[u []]| |]; cbn [obind fst snd]; auto.
        rewrite upd_app by lia. apply IH; [intros x Hx; apply HI; cbn; auto|lia|rewrite upd_length; auto]. }
      rewrite EX by (auto; try lia; apply incl_refl). apply (fwd_pad f2 p n); auto; try lia. intros i row v0 e HI HV. unfold f2. rewrite (lower_pad n) by auto. reflexivity. }
    rewrite E1. destruct (fwd f2 0 F v tt) as [[z e]| |] eqn:EF; cbn [obind fst snd]; auto.
    assert (LZ : length z = n). { destruct (fwd_spec r0 f2 F 0 v tt z e EF ltac:(cbn; lia)) as [L _]. lia. }
    unfold ilu_upper. rewrite (bwd_pad ilu_up_body p n) by (auto; try lia; intros i row v0 e0 Hi HI HV; unfold ilu_up_body, vget; rewrite app_nth1 by lia; rewrite (upper_pad n) by (auto; rewrite map_rev; apply Forall_rev; auto); reflexivity).
    destruct (bwd ilu_up_body 0 F z tt) as [r| |]; cbn [obind fst snd]; auto.
  Qed.
  Variable inv : R -> option R.
  Hypothesis inv_ok : forall a b, inv a = Some b -> a * b = r1 /\ b * a = r1.
  Lemma fwd_length {B X E} (f : nat -> list (nat * B) -> list X -> E -> outcome (X * E)) : forall rows k v e r, fwd f k rows v e = Ok r -> length (fst r) = length v.
  Proof.
    induction rows as [|row t IH]; intros k v e r H; cbn [fwd] in H; [injection H as <-; auto|]. destruct (f k row v e) as [r1| |]; cbn [obind] in H; try discriminate.
    apply IH in H. rewrite upd_length in H. exact H.
  Qed.
  Lemma ilu0_keeps_length : keeps_length (ilu0_solver inv).
  Proof.
    intros F lhs rhs lhs' rhs' H. cbn [l_apply ilu0_solver] in H. destruct (_ && _); [|discriminate]. destruct (ilu_backsolve F lhs rhs) as [z| |] eqn:E; cbn [obind] in H; try discriminate. injection H as <- <-. split; auto.
    unfold ilu_backsolve, ilu_lower, ubltsolve, bltsolve_gen in E. destruct (fwd _ 0 F lhs tt) as [r1| |] eqn:E1; cbn [obind] in E; try discriminate. apply fwd_length in E1.
    unfold ilu_upper in E. destruct (bwd _ 0 F (fst r1) tt) as [r2| |] eqn:E2; cbn [obind] in E; try discriminate. injection E as <-. apply bwd_length in E2. lia.
  Qed.
  Lemma lu_zero n (F : smat) piv (z : nat -> R) : pivots n F piv -> (forall i, i < n -> sum n (fun k => Lfac F i k * sum n (fun j => Ufac piv F k j * z j)) = r0) -> forall i, i < n -> z i = r0.
  Proof.
    intros HV H. set (y := fun k => sum n (fun j => Ufac piv F k j * z j)).
    assert (HY : forall i, i < n -> y i = r0).
    { induction i as [i IH] using lt_wf_ind. intros Hi. rewrite <- (H i Hi). fold (y i). rewrite (sum_single n i); auto.
      - unfold Lfac. rewrite Nat.ltb_irrefl, Nat.eqb_refl. fold (y i). ncring.
      - intros k Hk N. fold (y k). destruct (Nat.lt_ge_cases k i) as [L|L]; [rewrite IH by auto; apply rmul_0_r|]. unfold Lfac. destruct (Nat.ltb_spec k i); [lia|]. destruct (Nat.eqb_spec k i); [lia|]. apply rmul_0_l. }
    assert (HZ : forall m i, n - i <= m -> i < n -> z i = r0).
    { induction m as [|m IH]; intros i Hm Hi; [lia|]. assert (E : y i = piv i * z i).
      { unfold y. rewrite (sum_single n i); auto; [unfold Ufac; rewrite Nat.ltb_irrefl, Nat.eqb_refl; auto|]. intros j Hj N. unfold Ufac. destruct (Nat.ltb_spec i j); [rewrite (IH j) by lia; apply rmul_0_r|]. destruct (Nat.eqb_spec i j); [lia|]. apply rmul_0_l. }
      rewrite HY in E by auto. destruct (HV i Hi) as [_ E2]. transitivity (den F i i * (piv i * z i)); [rewrite rmul_assoc, E2; ncring|rewrite <- E; apply rmul_0_r]. }
    intros i Hi. apply (HZ (n - i)%nat); auto.
  Qed.
  (** the product of the incomplete factors of the local matrix *)
  Definition lu_product_of (F : smat) (piv : nat -> R) (k : nat) (i j : nat) : R := sum k (fun l => Lfac F i l * Ufac piv F l j).
  (** ILU0SubdomainSolver: setSubMatrix reports the row of a singular pivot of the local matrix, or factors A_dd incompletely: L U = A_dd on the entries A stores;
      apply then solves L U z = r whatever the arrays contain beyond the subdomain, so C55_total and C55_solution_stays apply *)
  Theorem C55_ilu0 n A d : mat_wf n n A -> diag_stored n A -> domain_wf n d ->
    (exists F piv, set_sub (ilu0_solver inv) A d = Ok F /\ mat_wf (length d) (length d) F /\ pivots (length d) F piv /\
       (forall i j, i < length d -> j < length d -> instored F i j <-> instored A (nth i d 0%nat) (nth j d 0%nat)) /\
       (forall i j, i < length d -> j < length d -> instored A (nth i d 0%nat) (nth j d 0%nat) -> lu_product_of F piv (length d) i j = den A (nth i d 0%nat) (nth j d 0%nat)) /\
       (forall r z, local_solution (ilu0_solver inv) A d r z -> solves (length d) (lu_product_of F piv (length d)) (vget z) (vget r)) /\
       solver_total (ilu0_solver inv) A d /\ zero_to_zero (ilu0_solver inv) A d) \/
    (exists r, r < length d /\ set_sub (ilu0_solver inv) A d = Throw (EBlock r)).
  Proof.
    intros HW HD HDom. destruct (C55_local_matrix n A d HW HDom) as (L & L1 & L2 & L3).
    assert (DL : diag_stored (length d) L). { intros i Hi. apply L3; auto. apply HD. destruct HDom as [_ HF]. rewrite Forall_forall in HF. apply HF, nth_In. auto. }
    cbn [set_sub ilu0_solver]. rewrite L1. cbn [obind]. destruct (C15_ilu0 inv inv_ok (length d) L L2 DL) as [(F & F1 & F2 & F3 & piv & F4 & F5)|(r & E & Hr & _)]; [left|right; eauto].
    assert (SP : forall i j, instored L i j <-> instored F i j). { intros i j. unfold instored. rewrite <- !(map_nth (map fst)). unfold same_pattern in F3. rewrite F3. tauto. }
    assert (DF : diag_stored (length d) F) by (intros i Hi; apply SP, DL; auto). pose proof (proj1 F2) as LF.
    assert (SOL : forall lhs rhs, length d <= length lhs -> length d <= length rhs -> exists z, ilu_backsolve F lhs rhs = Ok (z ++ skipn (length d) lhs) /\ length z = length d /\
              forall i, i < length d -> sum (length d) (fun k => Lfac F i k * sum (length d) (fun j => Ufac piv F k j * vget z j)) = vget (firstn (length d) rhs) i).
    { intros lhs rhs H1 H2. destruct (C17_backsolve (length d) F piv (firstn (length d) lhs) (firstn (length d) rhs) F2 DF F4) as (z & Z1 & Z2 & Z3); [rewrite firstn_length; lia|rewrite firstn_length; lia|].
      exists z. split; [|auto]. rewrite <- (firstn_skipn (length d) lhs) at 1. rewrite <- (firstn_skipn (length d) rhs). rewrite (backsolve_pad (length d)) by (auto; rewrite firstn_length; lia). rewrite Z1. reflexivity. }
    assert (LOC : forall r z, local_solution (ilu0_solver inv) A d r z -> length z = length d /\ forall i, i < length d -> sum (length d) (fun k => Lfac F i k * sum (length d) (fun j => Ufac piv F k j * vget z j)) = vget r i).
    { intros r z (F' & lhs & rhs & lhs' & rhs' & S1 & S2 & S3 & S4 & S5 & S6). split; auto. cbn [set_sub ilu0_solver] in S1. rewrite L1 in S1. cbn [obind] in S1. rewrite F1 in S1. injection S1 as <-.
      cbn [l_apply ilu0_solver] in S3. rewrite LF in S3. destruct (Nat.leb_spec (length d) (length lhs)); [|discriminate]. destruct (Nat.leb_spec (length d) (length rhs)); [|discriminate]. cbn [andb] in S3.
      destruct (SOL lhs rhs) as (z1 & Z1 & Z2 & Z3); auto. rewrite Z1 in S3. cbn [obind] in S3. injection S3 as <- <-. rewrite firstn_app, Z2, Nat.sub_diag, <- Z2, firstn_all in S4. cbn in S4. rewrite app_nil_r in S4. rewrite <- S4, <- S2. exact Z3. }
    exists F, piv. split; auto. split; auto. split; auto. split; [intros i j Hi Hj; rewrite <- SP; apply L3; auto|]. split.
    { intros i j Hi Hj HS. destruct (L3 i j Hi Hj) as [<- Q]. apply F5; auto. apply Q; auto. }
    split; [intros r z HL; destruct (LOC r z HL) as [_ E]; apply lu_solves; auto|]. split.
    - exists F. cbn [set_sub ilu0_solver]. rewrite L1. cbn [obind]. split; auto. intros lhs rhs H1 H2. cbn [l_apply ilu0_solver]. rewrite LF. destruct (Nat.leb_spec (length d) (length lhs)); [|lia]. destruct (Nat.leb_spec (length d) (length rhs)); [|lia]. cbn [andb].
      destruct (SOL lhs rhs) as (z & Z1 & _); auto. rewrite Z1. cbn [obind]. eauto.
    - intros z HL. destruct (LOC _ z HL) as [LZ E]. apply vec_ext; [rewrite repeat_length; auto|]. intros i Hi. rewrite LZ in Hi. unfold vget at 2. rewrite nth_repeat. apply (lu_zero (length d) F piv (vget z)); auto.
      intros k Hk. rewrite E by auto. unfold vget. apply nth_repeat.
  Qed.
  (** with a Hermitian matrix whose pattern is symmetric ILU0SubdomainSolver is Hermitian, so C55_symmetric applies *)
  Theorem C55_ilu0_hermitian star n A d : involution star -> mat_wf n n A -> diag_stored n A -> domain_wf n d -> hermitian star n (den A) -> sym_pattern n A -> herm_solver (ilu0_solver inv) star A d.
  Proof.
    intros HS HW HD HDom HA HP r z r' z' H1 H2. destruct (C55_ilu0 n A d HW HD HDom) as [(F & piv & F1 & F2 & F3 & F4 & F5 & F6 & _)|(k & _ & E)].
    2:{ destruct H1 as (l & _ & _ & _ & _ & E1 & _). congruence. }
    assert (B : forall k, k < length d -> nth k d 0%nat < n) by (intros k Hk; destruct HDom as [_ HF]; rewrite Forall_forall in HF; apply HF, nth_In; auto).
    apply (herm_solves star HS (length d) (lu_product_of F piv (length d))); auto. destruct (C55_local_matrix n A d HW HDom) as (L & L1 & L2 & L3).
    apply (lu_hermitian star HS (length d) L F piv); auto.
    - intros i j Hi Hj. unfold ctrans. rewrite (proj1 (L3 i j Hi Hj)), (proj1 (L3 j i Hj Hi)). apply HA; auto.
    - intros i Hi. apply F4; auto.
    - intros i j Hi Hj H. apply F4; auto. apply HP; auto. apply F4; auto.
    - intros i j Hi HS'. assert (Hj : j < length d). { pose proof (mat_wf_row (length d) (length d) F i F2) as [_ W]. rewrite Forall_forall in W. apply W; auto. }
      rewrite (proj1 (L3 i j Hi Hj)). apply F5; auto. apply F4; auto.
  Qed.
  (** ** DynamicMatrixSubdomainSolver: given that DynamicMatrix::solve solves, the subdomain solver is exact (C55_exact) *)
  Variable dsolve : list (list R) -> vec -> outcome vec.
  Definition dense_solves : Prop := forall D r z, dsolve D r = Ok z -> length z = length D /\ forall k, k < length D -> sum (length D) (fun l => vget (nth k D nil) l * vget z l) = vget r k.
  Theorem C55_dynamic n A d : dense_solves -> mat_wf n n A -> domain_wf n d ->
    keeps_length (dynamic_solver dsolve) /\ exact_solver (dynamic_solver dsolve) A d /\
    (exists D, set_sub (dynamic_solver dsolve) A d = Ok D /\ length D = length d /\ forall i j, i < length d -> j < length d -> vget (nth i D nil) j = den A (nth i d 0%nat) (nth j d 0%nat)).
  Proof.
    intros HS HW HDom. assert (DE : forall i j, i < length d -> j < length d -> vget (nth i (dense_sub A d) nil) j = den A (nth i d 0%nat) (nth j d 0%nat)).
    { intros i j Hi Hj. unfold dense_sub. rewrite nth_indep with (d' := (fun r => map (fun c => den A r c) d) 0%nat) by (rewrite map_length; auto). rewrite (map_nth (fun r => map (fun c => den A r c) d)). apply (vget_map_dom (fun c => den A (nth i d 0%nat) c)); auto. }
    assert (LD : length (dense_sub A d) = length d) by apply map_length. split; [|split].
    - intros D lhs rhs lhs' rhs' H. cbn [l_apply dynamic_solver] in H. destruct (Nat.leb_spec (length D) (length lhs)); [|discriminate]. destruct (Nat.leb_spec (length D) (length rhs)); [|discriminate]. cbn [andb] in H.
      destruct (dsolve D _) as [z| |] eqn:E; cbn [obind] in H; try discriminate. injection H as <- <-. destruct (HS _ _ _ E) as [LZ _]. rewrite !app_length, !repeat_length, firstn_length. lia.
    - intros r z (D & lhs & rhs & lhs' & rhs' & S1 & S2 & S3 & S4 & S5 & S6). cbn [set_sub dynamic_solver] in S1. destruct (forallb _ d); [|discriminate]. injection S1 as <-. cbn [l_apply dynamic_solver] in S3. rewrite LD in S3.
      destruct (_ && _); [|discriminate]. rewrite S2 in S3. destruct (dsolve _ r) as [y| |] eqn:E; cbn [obind] in S3; try discriminate. injection S3 as <- <-. destruct (HS _ _ _ E) as [LY HY]. rewrite LD in LY, HY.
      rewrite firstn_app, LY, Nat.sub_diag, <- LY, firstn_all in S4. cbn in S4. rewrite app_nil_r in S4. subst y. intros k Hk. rewrite <- (HY k Hk). apply sum_ext. intros l Hl. rewrite DE by auto. reflexivity.
    - exists (dense_sub A d). cbn [set_sub dynamic_solver]. assert (B : forallb (fun r => r <? length A) d = true). { apply forallb_forall. intros r Hr. apply Nat.ltb_lt. destruct HDom as [_ HF]. rewrite Forall_forall in HF. rewrite (proj1 HW). auto. } rewrite B. auto.
  Qed.
End Ilu0.

(** ** The constructor from the row-to-domain lists *)
Lemma set_ins_in j l x : In x (set_ins j l) <-> x = j \/ In x l.
Proof.
  induction l as [|k t IH]; cbn; [intuition|]. destruct (j <? k); cbn; [intuition|]. destruct (Nat.eqb_spec j k) as [->|]; cbn; [intuition|]. rewrite IH. intuition.
Qed.
Lemma set_ins_sorted j l : StronglySorted lt l -> StronglySorted lt (set_ins j l).
Proof.
  induction 1 as [|k t HS IH HF]; cbn; [repeat constructor|]. destruct (Nat.ltb_spec j k); [constructor; [constructor; auto|]; rewrite Forall_forall in *; intros x [<-|Hx]; [auto|specialize (HF x Hx); lia]|].
  destruct (Nat.eqb_spec j k); [constructor; auto|]. constructor; auto. rewrite Forall_forall in *. intros x Hx. apply set_ins_in in Hx. destruct Hx as [ -> |Hx]; [lia|auto].
Qed.
Lemma nth_upd_list {T} (l : list T) i j a d : i < length l -> nth j (upd l i a) d = if j =? i then a else nth j l d.
Proof.
  revert i j. induction l as [|b l IH]; intros [|i] [|j] H; cbn in *; try lia; auto. rewrite IH by lia. reflexivity.
Qed.
Lemma fill_row_in row l : forall sd, Forall (fun d => d < length sd) l -> let sd' := fold_left (fun s d => upd s d (set_ins row (nth d s nil))) l sd in
  length sd' = length sd /\ (forall d x, d < length sd -> In x (nth d sd' nil) <-> In x (nth d sd nil) \/ (x = row /\ In d l)) /\ (Forall (StronglySorted lt) sd -> Forall (StronglySorted lt) sd').
Proof.
  induction l as [|e l IH]; intros sd HF; cbn [fold_left]; [cbn; split; auto; split; auto; intuition|]. pose proof (Forall_inv HF) as He. pose proof (Forall_inv_tail HF) as Hl.
  destruct (IH (upd sd e (set_ins row (nth e sd nil)))) as [I1 [I2 I3]]; [rewrite upd_length; auto|]. rewrite upd_length in I1, I2. cbn. split; auto. split.
  - intros d x Hd. rewrite I2 by auto. rewrite nth_upd_list by auto. destruct (Nat.eqb_spec d e) as [->|N]; [rewrite set_ins_in; intuition|]. intuition congruence.
  - intros HS. apply I3. rewrite Forall_forall. intros d HI. apply In_nth with (d := nil) in HI. destruct HI as [k [Hk <-]]. rewrite upd_length in Hk. rewrite nth_upd_list by auto.
    assert (HN : forall k, k < length sd -> StronglySorted lt (nth k sd nil)) by (intros; apply Forall_nth; auto). destruct (k =? e); [apply set_ins_sorted|]; auto.
Qed.
Lemma fill_in rtd : forall row sd, Forall (Forall (fun d => d < length sd)) rtd -> 
  length (fill_domains row rtd sd) = length sd /\ (forall d x, d < length sd -> In x (nth d (fill_domains row rtd sd) nil) <-> In x (nth d sd nil) \/ (row <= x < row + length rtd /\ In d (nth (x - row) rtd nil))) /\
  (Forall (StronglySorted lt) sd -> Forall (StronglySorted lt) (fill_domains row rtd sd)).
Proof.
  induction rtd as [|l t IH]; intros row sd HF; cbn [fill_domains length]; [split; auto; split; auto; intros; intuition lia|]. pose proof (Forall_inv HF) as H1. pose proof (Forall_inv_tail HF) as H2.
  destruct (fill_row_in row l sd H1) as [R1 [R2 R3]]. destruct (IH (S row) (fold_left (fun s d => upd s d (set_ins row (nth d s nil))) l sd)) as [I1 [I2 I3]]; [rewrite R1; auto|]. rewrite R1 in *. split; auto. split; [|auto].
  intros d x Hd. rewrite I2, R2 by auto. destruct (Nat.eq_dec x row) as [->|N].
  - rewrite Nat.sub_diag. cbn. intuition lia.
  - split.
    + intros [[H|[E _]]|[Hx H]]; [left; auto|congruence|right]. split; [lia|]. replace (x - row) with (S (x - S row)) by lia. exact H.
    + intros [H|[Hx H]]; [left; left; auto|right]. split; [lia|]. replace (x - row) with (S (x - S row)) in H by lia. exact H.
Qed.
Lemma fold_max_ge l : forall m, m <= fold_left Nat.max l m /\ forall d, In d l -> d <= fold_left Nat.max l m.
Proof.
  induction l as [|e l IH]; intros m; cbn; [split; auto; intros d []|]. destruct (IH (Nat.max m e)) as [I1 I2]. split; [lia|]. intros d [<-|H]; [lia|auto].
Qed.
Lemma domain_count_gt rtd : Forall (Forall (fun d => d < domain_count rtd)) rtd.
Proof.
  unfold domain_count. assert (H : forall m, m <= fold_left (fun m l => fold_left Nat.max l m) rtd m /\ forall l d, In l rtd -> In d l -> d <= fold_left (fun m l => fold_left Nat.max l m) rtd m).
  { induction rtd as [|l t IH]; intros m; cbn; [split; auto; intros l d []|]. destruct (IH (fold_left Nat.max l m)) as [I1 I2]. destruct (fold_max_ge l m) as [M1 M2]. split; [lia|]. intros l' d [<-|HI] Hd; [specialize (M2 d Hd); lia|eauto]. }
  rewrite Forall_forall. intros l Hl. rewrite Forall_forall. intros d Hd. destruct (H 0) as [_ H2]. specialize (H2 l d Hl Hd). lia.
Qed.
(** Given rowToDomain, the subdomains are exactly: row i belongs to subdomain d iff rowToDomain[i] contains d; every row set is sorted and within the matrix. *)
Theorem C55_rows_to_domains n rtd : length rtd = n ->
  (forall i d, In d (nth i rtd nil) -> d < length (domains_of_rows rtd)) /\
  (forall i d, d < length (domains_of_rows rtd) -> In i (nth d (domains_of_rows rtd) nil) <-> In d (nth i rtd nil)) /\
  Forall (domain_wf n) (domains_of_rows rtd).
Proof.
  intros HL. pose proof (domain_count_gt rtd) as HC. unfold domains_of_rows.
  destruct (fill_in rtd 0 (repeat nil (domain_count rtd))) as [L [H1 H2]]; [rewrite repeat_length; auto|]. rewrite repeat_length in L, H1. rewrite L.
  assert (IFF : forall i d, d < domain_count rtd -> In i (nth d (fill_domains 0 rtd (repeat nil (domain_count rtd))) nil) <-> In d (nth i rtd nil)).
  { intros i d Hd. rewrite H1 by auto. rewrite nth_repeat, Nat.sub_0_r. cbn [In]. split; [intuition|]. intros H. right. split; auto. split; [lia|]. destruct (Nat.lt_ge_cases i (length rtd)); auto. rewrite nth_overflow in H by auto. destruct H. }
  split; [|split; auto].
  - intros i d Hd. rewrite Forall_forall in HC. destruct (Nat.lt_ge_cases i (length rtd)) as [Hi|Hi]; [|rewrite nth_overflow in Hd by auto; destruct Hd]. specialize (HC _ (nth_In rtd nil Hi)). rewrite Forall_forall in HC. auto.
  - rewrite Forall_forall. intros dom HI. apply In_nth with (d := nil) in HI. destruct HI as [k [Hk <-]]. rewrite L in Hk. split.
    + apply Forall_nth; [|rewrite L; auto]. apply H2. rewrite Forall_forall. intros x Hx. apply repeat_spec in Hx. subst x. constructor.
    + rewrite Forall_forall. intros x Hx. apply IFF in Hx; auto. destruct (Nat.lt_ge_cases x (length rtd)); [lia|]. rewrite nth_overflow in Hx by auto. destruct Hx.
Qed.

(** ** Deviation: with DynamicMatrixSubdomainSolver the multiplicative modes scale the k-th row of a subdomain by w^(k+1) instead of w, because relaxResult, called once per row,
    scales the whole array.  Here A is the identity, so one exact subdomain solve with relaxation 1/2 should give (1/2, 1/2). *)
Definition exI2 : smat Qcring := [[(0, q 1)]; [(1, q 1)]].
Definition id_dsolve (D : list (list Qcring)) (r : vec Qcring) : outcome (vec Qcring) := if length D =? length r then Ok r else UB.
Theorem C55_dynamic_relax_refuted :
  exists z x', schwarz_ctor (R := Qcring) (dynamic_solver id_dsolve) exI2 [[0; 1]] (Q2Qc (1 # 2)) false = Ok z /\
    (forall r y, id_dsolve (dense_sub exI2 [0; 1]) r = Ok y -> length y = 2 /\ forall k, k < 2 -> sum 2 (fun l => @rmul Qcring (vget (nth k (dense_sub exI2 [0; 1]) nil) l) (vget y l)) = vget r k) /\
    schwarz_apply (R := Qcring) (dynamic_solver id_dsolve) Multiplicative z [q 0; q 0] [q 1; q 1] = Ok x' /\ map this x' = [1 # 2; 1 # 4]%Q.
Proof.
  exists (okval (mkSchwarz (R := Qcring) (dynamic_solver id_dsolve) nil nil (q 0) 0 false) (schwarz_ctor (R := Qcring) (dynamic_solver id_dsolve) exI2 [[0; 1]] (Q2Qc (1 # 2)) false)).
  exists (okval nil (schwarz_apply (R := Qcring) (dynamic_solver id_dsolve) Multiplicative (okval (mkSchwarz (R := Qcring) (dynamic_solver id_dsolve) nil nil (q 0) 0 false) (schwarz_ctor (R := Qcring) (dynamic_solver id_dsolve) exI2 [[0; 1]] (Q2Qc (1 # 2)) false)) [q 0; q 0] [q 1; q 1])).
  split; [apply isok_val; vm_compute; reflexivity|]. split; [|split; [apply isok_val; vm_compute; reflexivity|vm_compute; reflexivity]].
  intros r y H. unfold id_dsolve in H. destruct (Nat.eqb_spec (length (dense_sub exI2 [0; 1])) (length r)) as [E|]; [|discriminate]. injection H as <-. cbn in E. split; [auto|].
  intros k Hk. destruct r as [|a [|b [|? ?]]]; try discriminate. destruct k as [|[|k]]; [| |lia].
  - change (radd (radd (@r0 Qcring) (rmul r1 a)) (rmul r0 b) = a). ncring.
  - change (radd (radd (@r0 Qcring) (rmul r0 a)) (rmul r1 b) = b). ncring.
Qed.
(** the hypotheses hold: two overlapping subdomains of a 3x3 system with ILU0 subdomain solvers; apply in the three modes, from rowToDomain *)
Example C55_nonvacuous : mat_wf 3 3 exS /\ diag_stored 3 exS /\ Forall (domain_wf 3) [[0; 1]; [1; 2]] /\ domains_of_rows [[0]; [0; 1]; [1]] = [[0; 1]; [1; 2]] /\
  exists z, constructed (R := Qcring) (@ilu0_solver Qcring Qcinv_opt) 3 exS [[0; 1]; [1; 2]] (q 1) false z /\
    (forall m, isok (schwarz_apply (R := Qcring) (@ilu0_solver Qcring Qcinv_opt) m z [q 0; q 0; q 0] [q 1; q 2; q 3]) = true) /\
    map this (okval nil (schwarz_apply (R := Qcring) (@ilu0_solver Qcring Qcinv_opt) Multiplicative z [q 0; q 0; q 0] [q 1; q 2; q 3])) = [1 # 5; -3 # 5; 18 # 5]%Q.
Proof.
  destruct C19_nonvacuous as [H1 [H2 _]]. split; [exact H1|]. split; [exact H2|].
  assert (HD : Forall (domain_wf 3) [[0; 1]; [1; 2]]) by (repeat constructor; lia). split; [exact HD|]. split; [reflexivity|].
  exists (okval (mkSchwarz (R := Qcring) (@ilu0_solver Qcring Qcinv_opt) nil nil (q 0) 0 false) (schwarz_ctor (R := Qcring) (@ilu0_solver Qcring Qcinv_opt) exS [[0; 1]; [1; 2]] (q 1) false)).
  split; [split; [apply isok_val; vm_compute; reflexivity|split; auto]|]. split; [intros []; vm_compute; reflexivity|]. vm_compute. reflexivity.
Qed.
Print Assumptions C55_additive.
Print Assumptions C55_multiplicative.
Print Assumptions C55_multiplicative_dynamic.
Print Assumptions C55_total.
Print Assumptions C55_on_the_fly.
Print Assumptions C55_solution_stays.
Print Assumptions C55_exact.
Print Assumptions C55_symmetric.
Print Assumptions C55_local_matrix.
Print Assumptions C55_ilu0.
Print Assumptions C55_ilu0_hermitian.
Print Assumptions C55_dynamic.
Print Assumptions C55_rows_to_domains.
Print Assumptions C55_dynamic_relax_refuted.
