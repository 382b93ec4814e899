(** * Triangular solves and iteration steps: C13, C14 *)
From Coq Require Import Arith List Lia Sorted Bool ZArith QArith Qcanon.
From Verif Require Import Ring Sums RingInst Outcome Sparse MatVec GsModel.
Import ListNotations.
Open Scope nat_scope.
Arguments Nat.ltb : simpl never. Arguments Nat.eqb : simpl never. Arguments Nat.leb : simpl never.

Section LoopFacts.
  Context {B X E : Type}.
  Variable dx : X.
  Variable f : nat -> list (nat * B) -> list X -> E -> outcome (X * E).

  Lemma nth_upd_eq_lt (l : list X) i x : i < length l -> nth i (upd l i x) dx = x.
  Proof. apply nth_upd_eq. Qed.

  Lemma fwd_spec rows : forall k x e x' e', fwd f k rows x e = Ok (x', e') -> k + length rows <= length x ->
    length x' = length x /\ (forall j, j < k \/ k + length rows <= j -> nth j x' dx = nth j x dx) /\
    forall i, i < length rows -> exists xi ei ei',
      length xi = length x /\ f (k + i) (nth i rows nil) xi ei = Ok (nth (k + i) x' dx, ei') /\
      (forall j, j < k + i -> nth j xi dx = nth j x' dx) /\ (forall j, k + i <= j -> nth j xi dx = nth j x dx).
  Proof.
    induction rows as [|row t IH]; intros k x e x' e' H HL; simpl in *.
    - inversion H; subst. split; [auto|split; [auto|intros; lia]].
    - destruct (f k row x e) as [[u e1]|ex|] eqn:Ef; simpl in H; try discriminate.
      destruct (IH (S k) _ _ _ _ H) as (H1 & H2 & H3); [rewrite upd_length; lia|]. rewrite upd_length in *.
      split; auto. split.
      + intros j Hj. rewrite H2 by lia. apply nth_upd_ne. lia.
      + intros [|i] Hi.
        * exists x, e, e1. rewrite Nat.add_0_r. split; auto. rewrite H2, nth_upd_eq by lia. split; auto. split; auto.
          intros j Hj. rewrite H2 by lia. rewrite nth_upd_ne by lia. auto.
        * destruct (H3 i ltac:(lia)) as (xi & ei & ei' & A1 & A2 & A3 & A4). exists xi, ei, ei'.
          replace (k + S i) with (S k + i) by lia. split; auto. split; auto. split; auto.
          intros j Hj. rewrite A4 by lia. rewrite nth_upd_ne by lia. auto.
  Qed.

  Lemma fwd_total rows : forall k x e, k + length rows <= length x ->
    (forall i xi ei, i < length rows -> length xi = length x -> exists u e', f (k + i) (nth i rows nil) xi ei = Ok (u, e')) ->
    exists x' e', fwd f k rows x e = Ok (x', e').
  Proof.
    induction rows as [|row t IH]; intros k x e HL HF; simpl in *; eauto.
    destruct (HF 0 x e ltac:(lia) eq_refl) as (u & e1 & E1). rewrite Nat.add_0_r in E1. simpl in E1. rewrite E1. simpl.
    apply IH; [rewrite upd_length; lia|]. intros i xi ei Hi Hxi. rewrite upd_length in Hxi.
    destruct (HF (S i) xi ei ltac:(lia) Hxi) as (u' & e' & E'). replace (S k + i) with (k + S i) by lia. eauto.
  Qed.

  Lemma bwd_spec rows : forall k x e x' e', bwd f k rows x e = Ok (x', e') -> k + length rows <= length x ->
    length x' = length x /\ (forall j, j < k \/ k + length rows <= j -> nth j x' dx = nth j x dx) /\
    forall i, i < length rows -> exists xi ei ei',
      length xi = length x /\ f (k + i) (nth i rows nil) xi ei = Ok (nth (k + i) x' dx, ei') /\
      (forall j, j <= k + i -> nth j xi dx = nth j x dx) /\ (forall j, k + i < j -> nth j xi dx = nth j x' dx).
  Proof.
    induction rows as [|row t IH]; intros k x e x' e' H HL; simpl in *.
    - inversion H; subst. split; [auto|split; [auto|intros; lia]].
    - destruct (bwd f (S k) t x e) as [[x1 e1]|ex|] eqn:Eb; simpl in H; try discriminate.
      destruct (f k row x1 e1) as [[u e2]|ex|] eqn:Ef; simpl in H; try discriminate. inversion H; subst x' e'; clear H.
      destruct (IH (S k) _ _ _ _ Eb) as (H1 & H2 & H3); [lia|]. rewrite upd_length.
      split; auto. split.
      + intros j Hj. rewrite nth_upd_ne by lia. apply H2. lia.
      + intros [|i] Hi.
        * exists x1, e1, e2. rewrite Nat.add_0_r. rewrite nth_upd_eq by lia. split; auto. split; auto. split.
          { intros j Hj. apply H2. lia. } { intros j Hj. rewrite nth_upd_ne by lia. auto. }
        * destruct (H3 i ltac:(lia)) as (xi & ei & ei' & A1 & A2 & A3 & A4). exists xi, ei, ei'.
          replace (k + S i) with (S k + i) by lia. rewrite nth_upd_ne by lia. split; auto. split; auto. split; auto.
          intros j Hj. rewrite A4 by lia. rewrite nth_upd_ne by lia. auto.
  Qed.

  Lemma bwd_total rows : forall k x e, k + length rows <= length x ->
    (forall i xi ei, i < length rows -> length xi = length x -> exists u e', f (k + i) (nth i rows nil) xi ei = Ok (u, e')) ->
    exists x' e', bwd f k rows x e = Ok (x', e').
  Proof.
    induction rows as [|row t IH]; intros k x e HL HF; simpl in *; eauto.
    destruct (IH (S k) x e) as (x1 & e1 & E1); [lia| |].
    - intros i xi ei Hi Hxi. destruct (HF (S i) xi ei ltac:(lia) Hxi) as (u' & e' & E'). replace (S k + i) with (k + S i) by lia. eauto.
    - rewrite E1. simpl. pose proof (bwd_spec _ _ _ _ _ _ E1 ltac:(lia)) as (L1 & _).
      destruct (HF 0 x1 e1 ltac:(lia) L1) as (u & e2 & E2). rewrite Nat.add_0_r in E2. simpl in E2. rewrite E2. simpl. eauto.
  Qed.
End LoopFacts.

(** splitting a sorted row at its diagonal entry *)
Section Split.
  Context {B X : Type}.
  Variable dx : X.
  Variable mmv : B -> X -> X -> X.
  Definition sorted_row (row : list (nat * B)) : Prop := StronglySorted lt (map fst row).
  Definition minus_all (row : list (nat * B)) (x : list X) (r : X) : X := fold_left (fun r e => mmv (snd e) (nth (fst e) x dx) r) row r.

  Lemma split_row row i : sorted_row row -> In i (map fst row) ->
    exists lo a hi, row = lo ++ (i, a) :: hi /\ Forall (fun e => fst e < i) lo /\ Forall (fun e => i < fst e) hi.
  Proof.
    unfold sorted_row. induction row as [|[j a] t IH]; simpl; intros HS HI; [tauto|]. inversion HS as [|? ? HS' HF]; subst.
    destruct (Nat.eq_dec j i) as [->|Hn].
    - exists nil, a, t. split; auto. split; auto. rewrite Forall_forall in HF. rewrite Forall_forall. intros e He. apply HF. apply in_map; auto.
    - destruct HI as [|HI]; [congruence|]. destruct (IH HS' HI) as (lo & b & hi & -> & H1 & H2).
      exists ((j, a) :: lo), b, hi. split; auto. split; auto. constructor; auto. simpl.
      rewrite Forall_forall in HF. apply HF; auto.
  Qed.

  Lemma lower_loop_split i lo a hi v r : Forall (fun e => fst e < i) lo ->
    lower_loop dx mmv i (lo ++ (i, a) :: hi) v r = (minus_all lo v r, (i, a) :: hi).
  Proof.
    intros H. revert r. induction lo as [|[j b] t IH]; intros r; simpl.
    - rewrite Nat.ltb_irrefl. auto.
    - inversion H; subst. simpl in *. apply Nat.ltb_lt in H2. rewrite H2. rewrite IH; auto.
  Qed.
  Lemma upper_loop_split i lo a hi v r : Forall (fun e => i < fst e) hi ->
    upper_loop dx mmv i (rev (lo ++ (i, a) :: hi)) v r = (minus_all (rev hi) v r, (i, a) :: rev lo).
  Proof.
    intros H. rewrite rev_app_distr. simpl. rewrite <- app_assoc. simpl. assert (H' : Forall (fun e => i < fst e) (rev hi)).
    { rewrite Forall_forall in *. intros e He. apply H. apply in_rev; auto. }
    clear H. revert r. induction (rev hi) as [|[j b] t IH]; intros r; simpl.
    - rewrite Nat.ltb_irrefl. auto.
    - inversion H'; subst. simpl in *. apply Nat.ltb_lt in H1. rewrite H1. rewrite IH; auto.
  Qed.
  Lemma row_find_split i (lo : list (nat * B)) a hi : Forall (fun e => fst e < i) lo -> row_find (lo ++ (i, a) :: hi) i = Some a.
  Proof.
    intros H. induction lo as [|[j b] t IH]; simpl; [now rewrite Nat.eqb_refl|]. inversion H; subst. simpl in *.
    destruct (Nat.eqb_spec j i); [lia|auto].
  Qed.
  Lemma minus_all_ext row x y r : (forall e, In e row -> nth (fst e) x dx = nth (fst e) y dx) -> minus_all row x r = minus_all row y r.
  Proof.
    revert r. unfold minus_all. induction row as [|e t IH]; intros r H; simpl; auto. rewrite (H e) by (simpl; auto). apply IH.
    intros; apply H; simpl; auto.
  Qed.
End Split.

Section Level1.
  Context {R : ring}.
  Local Open Scope ring_scope_istl.
  Variable inv : R -> option R.
  Hypothesis inv_ok : forall a b, inv a = Some b -> a * b = r1 /\ b * a = r1.

  (** ** Specification: A = L + D + U *)
  Definition Lp (A : smat R) (i j : nat) : R := if j <? i then den A i j else r0.
  Definition Dp (A : smat R) (i j : nat) : R := if j =? i then den A i j else r0.
  Definition Up (A : smat R) (i j : nat) : R := if i <? j then den A i j else r0.
  (** square, every diagonal block stored and invertible *)
  Definition diag_stored (n : nat) (A : smat R) : Prop := forall i, i < n -> instored A i i.
  Definition diag_invertible (n : nat) (A : smat R) : Prop := forall i, i < n -> exists u, inv (den A i i) = Some u.
  (** componentwise equation M x = y *)
  Definition solves (n : nat) (M : nat -> nat -> R) (x y : nat -> R) : Prop := forall i, i < n -> dense_mv n M x i = y i.

  Lemma minus_all_sum m (row : srow R) (v : vec R) r : row_wf m row ->
    minus_all r0 blk_mmv row v r = r - sum m (fun j => denrow row j * vget v j).
  Proof.
    intros [H1 H2]. rewrite <- (lsum_row (fun j a => a * vget v j) m row).
    - unfold minus_all, blk_mmv, vget. apply (fold_left_sub (fun e => snd e * nth (fst e) v r0)).
    - apply ssorted_NoDup; auto.
    - auto.
    - intros; apply rmul_0_l.
  Qed.
  Lemma row_wf_app m (l1 l2 : srow R) : row_wf m (l1 ++ l2) -> row_wf m l1 /\ row_wf m l2.
  Proof.
    unfold row_wf. rewrite !map_app. intros [H1 H2]. apply Forall_app in H2. destruct H2 as [H2 H3].
    assert (HS : StronglySorted lt (map fst l1) /\ StronglySorted lt (map fst l2)).
    { clear H2 H3. induction (map fst l1) as [|a t IH]; simpl in *; [split; [constructor|auto]|]. inversion H1; subst.
      destruct (IH H2) as [A C]. split; auto. constructor; auto. apply Forall_app in H3. tauto. }
    tauto.
  Qed.
  Lemma row_wf_rev_sum m (row : srow R) (v : vec R) r : row_wf m row ->
    minus_all r0 blk_mmv (rev row) v r = r - sum m (fun j => denrow row j * vget v j).
  Proof.
    intros H. rewrite <- (minus_all_sum m row v r H). unfold minus_all, blk_mmv.
    rewrite !(fold_left_sub (fun e => snd e * nth (fst e) v r0)). f_equal. apply lsum_perm.
    apply Permutation.Permutation_map. apply Permutation.Permutation_sym, Permutation.Permutation_rev.
  Qed.
  (** the three parts of a row *)
  Lemma split_den m (row lo hi : srow R) i a : row_wf m row -> row = lo ++ (i, a) :: hi ->
    Forall (fun e => fst e < i) lo -> Forall (fun e => i < fst e) hi ->
    row_wf m lo /\ row_wf m hi /\ denrow row i = a /\
    (forall j, denrow lo j = if j <? i then denrow row j else r0) /\
    (forall j, denrow hi j = if i <? j then denrow row j else r0).
  Proof.
    intros HW E Hlo Hhi. subst row. destruct (row_wf_app _ _ _ HW) as [W1 W2]. pose proof (row_wf_tail _ _ _ W2) as W3.
    split; auto. split; auto.
    assert (DA : forall l j, denrow (lo ++ l) j = if in_dec Nat.eq_dec j (map fst lo) then denrow lo j else denrow l j).
    { intros l j. clear. induction lo as [|[k b] t IH]; simpl; auto. destruct (Nat.eqb_spec k j) as [->|Hk].
      - destruct (Nat.eq_dec j j) as [|C]; [auto|congruence].
      - rewrite IH. destruct (Nat.eq_dec k j); [congruence|]. destruct (in_dec Nat.eq_dec j (map fst t)); auto. }
    assert (NL : forall j, i <= j -> ~ In j (map fst lo)).
    { intros j Hj HI. apply in_map_iff in HI. destruct HI as ([k b] & <- & HI). rewrite Forall_forall in Hlo. specialize (Hlo _ HI). simpl in *. lia. }
    assert (NH : forall j, j <= i -> ~ In j (map fst hi)).
    { intros j Hj HI. apply in_map_iff in HI. destruct HI as ([k b] & <- & HI). rewrite Forall_forall in Hhi. specialize (Hhi _ HI). simpl in *. lia. }
    split; [|split].
    - rewrite DA. destruct (in_dec Nat.eq_dec i (map fst lo)) as [HI|]; [exfalso; apply (NL i); auto|]. simpl. now rewrite Nat.eqb_refl.
    - intros j. rewrite DA. destruct (Nat.ltb_spec j i).
      + destruct (in_dec Nat.eq_dec j (map fst lo)) as [HI|Hn]; auto. rewrite denrow_notin by auto. simpl.
        destruct (Nat.eqb_spec i j); [lia|]. rewrite denrow_notin; auto. apply NH. lia.
      + apply denrow_notin, NL. auto.
    - intros j. rewrite DA. destruct (Nat.ltb_spec i j).
      + destruct (in_dec Nat.eq_dec j (map fst lo)) as [HI|Hn]; [exfalso; apply (NL j); auto; lia|]. simpl.
        destruct (Nat.eqb_spec i j); [lia|]. auto.
      + apply denrow_notin, NH. auto.
  Qed.

  Lemma wf_split n m (A : smat R) i : mat_wf n m A -> instored A i i ->
    exists lo hi, nth i A nil = lo ++ (i, den A i i) :: hi /\ Forall (fun e => fst e < i) lo /\ Forall (fun e => i < fst e) hi /\
      (forall v r, minus_all r0 blk_mmv lo v r = r - sum m (fun j => Lp A i j * vget v j)) /\
      (forall v r, minus_all r0 blk_mmv hi v r = r - sum m (fun j => Up A i j * vget v j)) /\
      (forall v r, minus_all r0 blk_mmv (rev hi) v r = r - sum m (fun j => Up A i j * vget v j)).
  Proof.
    intros HW HI. pose proof (mat_wf_row n m A i HW) as HR. destruct (split_row _ i (proj1 HR) HI) as (lo & a & hi & E & H1 & H2).
    destruct (split_den m _ lo hi i a HR E H1 H2) as (W1 & W2 & Ea & D1 & D2).
    exists lo, hi. unfold den at 1. rewrite Ea. split; auto. split; auto. split; auto. unfold Lp, Up, den.
    split; [|split]; intros v r; [rewrite (minus_all_sum m) by auto|rewrite (minus_all_sum m) by auto|rewrite (row_wf_rev_sum m) by auto];
      f_equal; apply sum_ext; intros j _; rewrite ?D1, ?D2; auto.
  Qed.

  Lemma lo_ext (i : nat) (lo : srow R) (x y : vec R) r : Forall (fun e => fst e < i) lo -> (forall j, j < i -> nth j x r0 = nth j y r0) ->
    minus_all r0 blk_mmv lo x r = minus_all r0 blk_mmv lo y r.
  Proof. intros H HE. apply minus_all_ext. intros e He. apply HE. rewrite Forall_forall in H. auto. Qed.
  Lemma hi_ext (i : nat) (hi : srow R) (x y : vec R) r : Forall (fun e => i < fst e) hi -> (forall j, i < j -> nth j x r0 = nth j y r0) ->
    minus_all r0 blk_mmv hi x r = minus_all r0 blk_mmv hi y r.
  Proof. intros H HE. apply minus_all_ext. intros e He. apply HE. rewrite Forall_forall in H. auto. Qed.
  Lemma rest_loop_minus (row : srow R) (x : vec R) r : rest_loop r0 blk_mmv row x r = minus_all r0 blk_mmv row x r.
  Proof. reflexivity. Qed.
  Lemma minus_all_cons (i : nat) (a : R) (hi : srow R) (x : vec R) r :
    minus_all r0 blk_mmv ((i, a) :: hi) x r = minus_all r0 blk_mmv hi x (r - a * vget x i).
  Proof. reflexivity. Qed.

  Section Char.
    Variables (n : nat) (A : smat R).
    Hypothesis HW : mat_wf n n A.
    Hypothesis HD : diag_stored n A.

    Ltac ll := pose proof (proj1 HW); lia.
    Lemma blt_char (g : R -> R -> outcome R) (v d : vec R) : length v = n ->
      (forall i r, i < n -> exists u, g (den A i i) r = Ok u) ->
      exists v', bltsolve_gen r0 blk_mmv (fun a _ r => g a r) A v d = Ok v' /\ length v' = n /\
        forall i, i < n -> g (den A i i) (vget d i - sum n (fun j => Lp A i j * vget v' j)) = Ok (vget v' i).
    Proof.
      intros Hv Hg. unfold bltsolve_gen. set (f := fun (i : nat) (row : list (nat * R)) (v : list R) (_ : unit) => _).
      assert (HT : exists x' e', fwd f 0 A v tt = Ok (x', e')).
      { apply fwd_total; [ll|]. intros i xi ei Hi _. simpl. unfold f. destruct (wf_split n n A i HW (HD i ltac:(ll))) as (lo & hi & E & H1 & _).
        rewrite E, lower_loop_split by auto. destruct (Hg i (minus_all r0 blk_mmv lo xi (nth i d r0)) ltac:(ll)) as (u & Eu). rewrite Eu. simpl. eauto. }
      destruct HT as (v' & e' & E'). rewrite E'. simpl. exists v'. split; auto.
      destruct (fwd_spec r0 f A 0 v tt v' e' E' ltac:(ll)) as (L' & _ & HS). split; [congruence|]. intros i Hi.
      destruct (HS i ltac:(ll)) as (xi & ei & ei' & A1 & A2 & A3 & _). simpl in A2, A3. unfold f in A2.
      destruct (wf_split n n A i HW (HD i Hi)) as (lo & hi & E & H1 & H2 & S1 & _).
      rewrite E, lower_loop_split in A2 by auto. rewrite (lo_ext i lo xi v') in A2 by auto. rewrite S1 in A2.
      unfold vget at 1. destruct (g (den A i i) (nth i d r0 - _)); simpl in A2; try discriminate. inversion A2; subst. auto.
    Qed.

    Lemma but_char (g : R -> R -> outcome R) (v d : vec R) : length v = n ->
      (forall i r, i < n -> exists u, g (den A i i) r = Ok u) ->
      exists v', butsolve_gen r0 blk_mmv (fun a _ r => g a r) A v d = Ok v' /\ length v' = n /\
        forall i, i < n -> g (den A i i) (vget d i - sum n (fun j => Up A i j * vget v' j)) = Ok (vget v' i).
    Proof.
      intros Hv Hg. unfold butsolve_gen. set (f := fun (i : nat) (row : list (nat * R)) (v : list R) (_ : unit) => _).
      assert (HT : exists x' e', bwd f 0 A v tt = Ok (x', e')).
      { apply (bwd_total r0); [ll|]. intros i xi ei Hi _. simpl. unfold f. destruct (wf_split n n A i HW (HD i ltac:(ll))) as (lo & hi & E & H1 & H2 & _).
        rewrite E, upper_loop_split by auto. destruct (Hg i (minus_all r0 blk_mmv (rev hi) xi (nth i d r0)) ltac:(ll)) as (u & Eu). rewrite Eu. simpl. eauto. }
      destruct HT as (v' & e' & E'). rewrite E'. simpl. exists v'. split; auto.
      destruct (bwd_spec r0 f A 0 v tt v' e' E' ltac:(ll)) as (L' & _ & HS). split; [congruence|]. intros i Hi.
      destruct (HS i ltac:(ll)) as (xi & ei & ei' & A1 & A2 & A3 & A4). simpl in A2, A3, A4. unfold f in A2.
      destruct (wf_split n n A i HW (HD i Hi)) as (lo & hi & E & H1 & H2 & S1 & S2 & S3).
      rewrite E, upper_loop_split in A2 by auto. rewrite (hi_ext i (rev hi) xi v') in A2; auto.
      2:{ rewrite Forall_forall in *. intros e He. apply H2. apply in_rev; auto. }
      rewrite S3 in A2. unfold vget at 1. destruct (g (den A i i) (nth i d r0 - _)); simpl in A2; try discriminate. inversion A2; subst. auto.
    Qed.

    Lemma bd_char (g : R -> R -> outcome R) (v d : vec R) : length v = n ->
      (forall i r, i < n -> exists u, g (den A i i) r = Ok u) ->
      exists v', bdsolve_gen r0 (fun a _ r => g a r) A v d = Ok v' /\ length v' = n /\
        forall i, i < n -> g (den A i i) (vget d i) = Ok (vget v' i).
    Proof.
      intros Hv Hg. unfold bdsolve_gen. set (f := fun (i : nat) (row : list (nat * R)) (v : list R) (_ : unit) => _).
      assert (HF : forall i, i < n -> row_find (nth i A nil) i = Some (den A i i)).
      { intros i Hi. destruct (wf_split n n A i HW (HD i Hi)) as (lo & hi & E & H1 & _). rewrite E. apply row_find_split; auto. }
      assert (HT : exists x' e', bwd f 0 A v tt = Ok (x', e')).
      { apply (bwd_total r0); [ll|]. intros i xi ei Hi _. simpl. unfold f. rewrite HF by ll. destruct (Hg i (nth i d r0) ltac:(ll)) as (u & Eu). rewrite Eu. simpl. eauto. }
      destruct HT as (v' & e' & E'). rewrite E'. simpl. exists v'. split; auto.
      destruct (bwd_spec r0 f A 0 v tt v' e' E' ltac:(ll)) as (L' & _ & HS). split; [congruence|]. intros i Hi.
      destruct (HS i ltac:(ll)) as (xi & ei & ei' & A1 & A2 & _). simpl in A2. unfold f in A2. rewrite HF in A2 by auto.
      unfold vget at 1. destruct (g (den A i i) (nth i d r0)); simpl in A2; try discriminate. inversion A2; subst. auto.
    Qed.

    Hypothesis HI : diag_invertible n A.
    Lemma solve_total i r : i < n -> exists u, blk_solve inv (den A i i) r = Ok u.
    Proof. intros Hi. unfold blk_solve. destruct (HI i Hi) as (u & E). rewrite E. eauto. Qed.
    Lemma solve_spec i r u : blk_solve inv (den A i i) r = Ok u -> den A i i * u = r.
    Proof.
      unfold blk_solve. destruct (inv (den A i i)) as [b|] eqn:E; [|discriminate]. intros H; inversion H; subst.
      destruct (inv_ok _ _ E) as [H1 _]. rewrite rmul_assoc, H1. apply rmul_1_l.
    Qed.
    Lemma solve_unique i r u : i < n -> den A i i * u = r -> blk_solve inv (den A i i) r = Ok u.
    Proof.
      intros Hi <-. unfold blk_solve. destruct (HI i Hi) as (b & E). rewrite E. destruct (inv_ok _ _ E) as [_ H1]. f_equal.
      rewrite rmul_assoc, H1. apply rmul_1_l.
    Qed.

    Lemma gs_char (x b : vec R) rel : length x = n ->
      exists z, dbgs_gen r0 blk_mmv (fun a _ r => blk_solve inv a r) rel A x b = Ok (map (fun p => rel (fst p) (snd p)) (combine z x)) /\ length z = n /\
        forall i, i < n -> den A i i * vget z i = vget b i - sum n (fun j => Lp A i j * vget z j) - sum n (fun j => Up A i j * vget x j).
    Proof.
      intros Hx. unfold dbgs_gen. set (f := fun (i : nat) (row : list (nat * R)) (v : list R) (_ : unit) => _).
      assert (HT : exists x' e', fwd f 0 A x tt = Ok (x', e')).
      { apply fwd_total; [ll|]. intros i xi ei Hi _. simpl. unfold f. destruct (wf_split n n A i HW (HD i ltac:(ll))) as (lo & hi & E & H1 & _).
        rewrite E, lower_loop_split by auto. match goal with |- context [blk_solve inv ?a ?r] => destruct (solve_total i r ltac:(ll)) as (u & Eu) end. rewrite Eu. simpl. eauto. }
      destruct HT as (z & e' & E'). rewrite E'. simpl. exists z. split; auto.
      destruct (fwd_spec r0 f A 0 x tt z e' E' ltac:(ll)) as (L' & _ & HS). split; [congruence|]. intros i Hi.
      destruct (HS i ltac:(ll)) as (xi & ei & ei' & A1 & A2 & A3 & A4). simpl in A2, A3, A4. unfold f in A2.
      destruct (wf_split n n A i HW (HD i Hi)) as (lo & hi & E & H1 & H2 & S1 & S2 & _).
      rewrite E, lower_loop_split in A2 by auto. rewrite rest_loop_minus in A2. rewrite (lo_ext i lo xi z) in A2 by auto.
      rewrite (hi_ext i hi xi x) in A2; auto. 2:{ intros; apply A4; ll. } rewrite S1, S2 in A2.
      destruct (blk_solve inv (den A i i) _) eqn:Es in A2; simpl in A2; try discriminate. inversion A2; subst.
      apply solve_spec in Es. exact Es.
    Qed.

    Lemma sorf_char (x b : vec R) w : length x = n ->
      exists x', bsorf inv A x b w = Ok x' /\ length x' = n /\
        forall i, i < n -> exists u, vget x' i = vget x i + w * u /\
          den A i i * u = vget b i - sum n (fun j => Lp A i j * vget x' j) - den A i i * vget x i - sum n (fun j => Up A i j * vget x j).
    Proof.
      intros Hx. unfold bsorf, bsorf_gen. set (f := bsor_body _ _ _ _ b).
      assert (HT : exists x' e', fwd f 0 A x (nth 0 x r0) = Ok (x', e')).
      { apply fwd_total; [ll|]. intros i xi ei Hi _. simpl. unfold f, bsor_body. destruct (wf_split n n A i HW (HD i ltac:(ll))) as (lo & hi & E & H1 & _).
        rewrite E, lower_loop_split by auto. match goal with |- context [blk_solve inv ?a ?r] => destruct (solve_total i r ltac:(ll)) as (u & Eu) end. rewrite Eu. simpl. eauto. }
      destruct HT as (z & e' & E'). rewrite E'. simpl. exists z. split; auto.
      destruct (fwd_spec r0 f A 0 x _ z e' E' ltac:(ll)) as (L' & _ & HS). split; [congruence|]. intros i Hi.
      destruct (HS i ltac:(ll)) as (xi & ei & ei' & A1 & A2 & A3 & A4). simpl in A2, A3, A4. unfold f, bsor_body in A2.
      destruct (wf_split n n A i HW (HD i Hi)) as (lo & hi & E & H1 & H2 & S1 & S2 & _).
      rewrite E, lower_loop_split in A2 by auto. rewrite rest_loop_minus in A2. rewrite (lo_ext i lo xi z) in A2 by auto.
      rewrite minus_all_cons, (hi_ext i hi xi x) in A2; auto. 2:{ intros; apply A4; ll. } rewrite S1, S2 in A2.
      destruct (blk_solve inv (den A i i) _) as [u| |] eqn:Es in A2; simpl in A2; try discriminate. injection A2 as A5 A6.
      exists u. rewrite A4 in A5 by auto. split; [symmetry; exact A5|]. apply solve_spec in Es. rewrite Es. unfold vget. rewrite A4 by auto. reflexivity.
    Qed.

    Lemma sorb_char (x b : vec R) w : length x = n ->
      exists x', bsorb inv A x b w = Ok x' /\ length x' = n /\
        forall i, i < n -> exists u, vget x' i = vget x i + w * u /\
          den A i i * u = vget b i - sum n (fun j => Lp A i j * vget x j) - den A i i * vget x i - sum n (fun j => Up A i j * vget x' j).
    Proof.
      intros Hx. unfold bsorb, bsorb_gen. set (f := bsor_body _ _ _ _ b).
      assert (HT : exists x' e', bwd f 0 A x (nth 0 x r0) = Ok (x', e')).
      { apply (bwd_total r0); [ll|]. intros i xi ei Hi _. simpl. unfold f, bsor_body. destruct (wf_split n n A i HW (HD i ltac:(ll))) as (lo & hi & E & H1 & _).
        rewrite E, lower_loop_split by auto. match goal with |- context [blk_solve inv ?a ?r] => destruct (solve_total i r ltac:(ll)) as (u & Eu) end. rewrite Eu. simpl. eauto. }
      destruct HT as (z & e' & E'). rewrite E'. simpl. exists z. split; auto.
      destruct (bwd_spec r0 f A 0 x _ z e' E' ltac:(ll)) as (L' & _ & HS). split; [congruence|]. intros i Hi.
      destruct (HS i ltac:(ll)) as (xi & ei & ei' & A1 & A2 & A3 & A4). simpl in A2, A3, A4. unfold f, bsor_body in A2.
      destruct (wf_split n n A i HW (HD i Hi)) as (lo & hi & E & H1 & H2 & S1 & S2 & _).
      rewrite E, lower_loop_split in A2 by auto. rewrite rest_loop_minus in A2. rewrite (lo_ext i lo xi x) in A2 by (auto; intros; apply A3; ll).
      rewrite minus_all_cons, (hi_ext i hi xi z) in A2; auto. rewrite S1, S2 in A2.
      destruct (blk_solve inv (den A i i) _) as [u| |] eqn:Es in A2; simpl in A2; try discriminate. injection A2 as A5 A6.
      exists u. rewrite A3 in A5 by auto. split; [symmetry; exact A5|]. apply solve_spec in Es. rewrite Es. unfold vget. rewrite A3 by auto. reflexivity.
    Qed.

    Lemma jac_char (x b : vec R) w : length x = n ->
      exists v, dbjac inv A x b w = Ok (map (fun p => fst p + w * snd p) (combine x v)) /\ length v = n /\
        forall i, i < n -> den A i i * vget v i = vget b i - sum n (fun j => Lp A i j * vget x j) - den A i i * vget x i - sum n (fun j => Up A i j * vget x j).
    Proof.
      intros Hx. unfold dbjac, dbjac_gen. set (f := fun (i : nat) (row : list (nat * R)) (v : list R) (_ : unit) => _).
      assert (HT : exists x' e', fwd f 0 A x tt = Ok (x', e')).
      { apply fwd_total; [ll|]. intros i xi ei Hi _. simpl. unfold f. destruct (wf_split n n A i HW (HD i ltac:(ll))) as (lo & hi & E & H1 & _).
        rewrite E, lower_loop_split by auto. match goal with |- context [blk_solve inv ?a ?r] => destruct (solve_total i r ltac:(ll)) as (u & Eu) end. rewrite Eu. simpl. eauto. }
      destruct HT as (z & e' & E'). rewrite E'. simpl. exists z. split; auto.
      destruct (fwd_spec r0 f A 0 x tt z e' E' ltac:(ll)) as (L' & _ & HS). split; [congruence|]. intros i Hi.
      destruct (HS i ltac:(ll)) as (xi & ei & ei' & A1 & A2 & _). simpl in A2. unfold f in A2.
      destruct (wf_split n n A i HW (HD i Hi)) as (lo & hi & E & H1 & H2 & S1 & S2 & _).
      rewrite E, lower_loop_split in A2 by auto. rewrite rest_loop_minus, minus_all_cons, S1, S2 in A2.
      destruct (blk_solve inv (den A i i) _) eqn:Es in A2; simpl in A2; try discriminate. inversion A2; subst.
      apply solve_spec in Es. exact Es.
    Qed.
  End Char.

  Lemma dense_add n (M N : nat -> nat -> R) x i : dense_mv n (fun i j => M i j + N i j) x i = dense_mv n M x i + dense_mv n N x i.
  Proof. unfold dense_mv. rewrite <- sum_add. apply sum_ext. intros; ncring. Qed.
  Lemma dense_D n A (x : nat -> R) i : i < n -> dense_mv n (Dp A) x i = den A i i * x i.
  Proof.
    intros Hi. unfold dense_mv. rewrite (sum_single n i) by (first [assumption|intros j _ Hj; unfold Dp; destruct (Nat.eqb_spec j i); [congruence|apply rmul_0_l]]).
    unfold Dp. now rewrite Nat.eqb_refl.
  Qed.
  Lemma dense_id n (x : nat -> R) i : i < n -> dense_mv n (fun i j => if j =? i then r1 else r0) x i = x i.
  Proof.
    intros Hi. unfold dense_mv. rewrite (sum_single n i) by (first [assumption|intros j _ Hj; destruct (Nat.eqb_spec j i); [congruence|apply rmul_0_l]]).
    rewrite Nat.eqb_refl. apply rmul_1_l.
  Qed.
  Lemma dense_LDU n (A : smat R) (x : nat -> R) i : i < n -> dense_mv n (den A) x i = dense_mv n (Lp A) x i + den A i i * x i + dense_mv n (Up A) x i.
  Proof.
    intros Hi. rewrite <- (dense_D n A x i Hi). unfold dense_mv. rewrite <- !sum_add. apply sum_ext. intros j _. unfold Lp, Dp, Up.
    destruct (Nat.ltb_spec j i), (Nat.eqb_spec j i), (Nat.ltb_spec i j); try lia; ncring.
  Qed.
  Definition idm (i j : nat) : R := if j =? i then r1 else r0.

  (** The triangular and diagonal solves succeed and return the solution of the corresponding system; [v] is only
      the storage of the result. *)
  Theorem C13_triangular_solves n (A : smat R) (v d : vec R) : mat_wf n n A -> diag_stored n A -> length v = n -> length d = n ->
    (diag_invertible n A -> exists v', bltsolve inv A v d = Ok v' /\ length v' = n /\
        solves n (fun i j => Lp A i j + Dp A i j) (vget v') (vget d)) /\
    (diag_invertible n A -> exists v', butsolve inv A v d = Ok v' /\ length v' = n /\
        solves n (fun i j => Dp A i j + Up A i j) (vget v') (vget d)) /\
    (diag_invertible n A -> exists v', bdsolve inv A v d = Ok v' /\ length v' = n /\ solves n (Dp A) (vget v') (vget d)) /\
    (exists v', ubltsolve A v d = Ok v' /\ length v' = n /\ solves n (fun i j => Lp A i j + idm i j) (vget v') (vget d)) /\
    (exists v', ubutsolve A v d = Ok v' /\ length v' = n /\ solves n (fun i j => idm i j + Up A i j) (vget v') (vget d)).
  Proof.
    intros HW HD Hv Hd. split; [|split; [|split; [|split]]].
    - intros HI. destruct (blt_char n A HW HD (blk_solve inv) v d Hv) as (v' & E & L & H); [intros; apply (solve_total n A HI); auto|].
      exists v'. split; auto. split; auto. intros i Hi. rewrite dense_add, dense_D by auto.
      rewrite (solve_spec A i _ _ (H i Hi)). unfold dense_mv. ncring.
    - intros HI. destruct (but_char n A HW HD (blk_solve inv) v d Hv) as (v' & E & L & H); [intros; apply (solve_total n A HI); auto|].
      exists v'. split; auto. split; auto. intros i Hi. rewrite dense_add, dense_D by auto.
      rewrite (solve_spec A i _ _ (H i Hi)). unfold dense_mv. ncring.
    - intros HI. destruct (bd_char n A HW HD (blk_solve inv) v d Hv) as (v' & E & L & H); [intros; apply (solve_total n A HI); auto|].
      exists v'. split; auto. split; auto. intros i Hi. rewrite dense_D by auto. exact (solve_spec A i _ _ (H i Hi)).
    - destruct (blt_char n A HW HD (fun _ r => Ok r) v d Hv) as (v' & E & L & H); [intros; eauto|].
      exists v'. split; auto. split; auto. intros i Hi. rewrite dense_add. unfold idm. rewrite dense_id by auto.
      specialize (H i Hi). injection H as H. rewrite <- H. unfold dense_mv. ncring.
    - destruct (but_char n A HW HD (fun _ r => Ok r) v d Hv) as (v' & E & L & H); [intros; eauto|].
      exists v'. split; auto. split; auto. intros i Hi. rewrite dense_add. unfold idm. rewrite dense_id by auto.
      specialize (H i Hi). injection H as H. rewrite <- H. unfold dense_mv. ncring.
  Qed.

  (** Relaxed forms: (D + w L) v = w d and so on, i.e. (L + D/w) v = d for invertible w. *)
  Theorem C13_relaxed_triangular_solves n (A : smat R) (v d : vec R) (w : R) : central w -> mat_wf n n A -> diag_stored n A -> length v = n -> length d = n ->
    (diag_invertible n A -> exists v', bltsolve_w inv A v d w = Ok v' /\ length v' = n /\
        solves n (fun i j => Dp A i j + w * Lp A i j) (vget v') (fun i => w * vget d i)) /\
    (diag_invertible n A -> exists v', butsolve_w inv A v d w = Ok v' /\ length v' = n /\
        solves n (fun i j => Dp A i j + w * Up A i j) (vget v') (fun i => w * vget d i)) /\
    (diag_invertible n A -> exists v', bdsolve_w inv A v d w = Ok v' /\ length v' = n /\ solves n (Dp A) (vget v') (fun i => w * vget d i)) /\
    (exists v', ubltsolve_w A v d w = Ok v' /\ length v' = n /\ solves n (fun i j => idm i j + w * Lp A i j) (vget v') (fun i => w * vget d i)) /\
    (exists v', ubutsolve_w A v d w = Ok v' /\ length v' = n /\ solves n (fun i j => idm i j + w * Up A i j) (vget v') (fun i => w * vget d i)).
  Proof.
    intros Hw HW HD Hv Hd.
    assert (KT : forall i r, diag_invertible n A -> i < n -> exists u, obind (blk_solve inv (den A i i) r) (fun u => Ok (u * w)) = Ok u).
    { intros i r HI Hi. destruct (solve_total n A HI i r Hi) as (u & E). rewrite E. simpl. eauto. }
    assert (KS : forall i r u, obind (blk_solve inv (den A i i) r) (fun u => Ok (u * w)) = Ok u -> den A i i * u = w * r).
    { intros i r u H. destruct (blk_solve inv (den A i i) r) as [u0| |] eqn:E; simpl in H; try discriminate. injection H as <-.
      rewrite <- (solve_spec A i r u0 E). rewrite rmul_assoc. symmetry. apply Hw. }
    assert (KM : forall (M : nat -> nat -> R) x i, dense_mv n (fun i j => w * M i j) x i = w * dense_mv n M x i).
    { intros. unfold dense_mv. rewrite <- sum_mul_l. apply sum_ext. intros. ncring. }
    split; [|split; [|split; [|split]]].
    - intros HI. destruct (blt_char n A HW HD (fun a r => obind (blk_solve inv a r) (fun u => Ok (u * w))) v d Hv) as (v' & E & L & H); [intros; auto|].
      exists v'. split; auto. split; auto. intros i Hi. rewrite dense_add, KM, dense_D by auto.
      rewrite (KS i _ _ (H i Hi)). unfold dense_mv. ncring.
    - intros HI. destruct (but_char n A HW HD (fun a r => obind (blk_solve inv a r) (fun u => Ok (u * w))) v d Hv) as (v' & E & L & H); [intros; auto|].
      exists v'. split; auto. split; auto. intros i Hi. rewrite dense_add, KM, dense_D by auto.
      rewrite (KS i _ _ (H i Hi)). unfold dense_mv. ncring.
    - intros HI. destruct (bd_char n A HW HD (fun a r => obind (blk_solve inv a r) (fun u => Ok (u * w))) v d Hv) as (v' & E & L & H); [intros; auto|].
      exists v'. split; auto. split; auto. intros i Hi. rewrite dense_D by auto. exact (KS i _ _ (H i Hi)).
    - destruct (blt_char n A HW HD (fun _ r => Ok (r * w)) v d Hv) as (v' & E & L & H); [intros; eauto|].
      exists v'. split; auto. split; auto. intros i Hi. rewrite dense_add, KM. unfold idm. rewrite dense_id by auto.
      specialize (H i Hi). injection H as H. rewrite <- H, <- Hw. unfold dense_mv. ncring.
    - destruct (but_char n A HW HD (fun _ r => Ok (r * w)) v d Hv) as (v' & E & L & H); [intros; eauto|].
      exists v'. split; auto. split; auto. intros i Hi. rewrite dense_add, KM. unfold idm. rewrite dense_id by auto.
      specialize (H i Hi). injection H as H. rewrite <- H, <- Hw. unfold dense_mv. ncring.
  Qed.

  Lemma vget_map2 n (g : R -> R -> R) (x y : vec R) i : length x = n -> length y = n -> i < n ->
    vget (map (fun p => g (fst p) (snd p)) (combine x y)) i = g (vget x i) (vget y i).
  Proof.
    intros Hx Hy Hi. unfold vget. rewrite (nth_indep _ r0 ((fun p => g (fst p) (snd p)) (@r0 R, @r0 R))) by (rewrite map_length, combine_length; lia).
    rewrite (map_nth (fun p => g (fst p) (snd p))). rewrite combine_nth by lia. reflexivity.
  Qed.

  (** One step of each method: the defining equation, for every right-hand side, start vector and (central) w. *)
  Theorem C14_sweeps n (A : smat R) (x b : vec R) (w : R) : central w -> mat_wf n n A -> diag_stored n A -> diag_invertible n A ->
    length x = n -> length b = n ->
    (* Jacobi: D (x'-x) = w (b - A x) *)
    (exists x', dbjac inv A x b w = Ok x' /\ length x' = n /\
       solves n (Dp A) (fun i => vget x' i - vget x i) (fun i => w * (vget b i - dense_mv n (den A) (vget x) i))) /\
    (* Gauss-Seidel, relaxed afterwards: (L+D) z + U x = b, x' = w z + (1-w) x *)
    (exists x' z, dbgs inv A x b w = Ok x' /\ length x' = n /\
       (forall i, i < n -> dense_mv n (fun i j => Lp A i j + Dp A i j) z i + dense_mv n (Up A) (vget x) i = vget b i) /\
       forall i, i < n -> vget x' i = w * z i + (r1 - w) * vget x i) /\
    (* forward SOR: D (x'-x) = w (b - L x' - (D+U) x) *)
    (exists x', bsorf inv A x b w = Ok x' /\ length x' = n /\
       solves n (Dp A) (fun i => vget x' i - vget x i)
         (fun i => w * (vget b i - dense_mv n (Lp A) (vget x') i - dense_mv n (fun i j => Dp A i j + Up A i j) (vget x) i))) /\
    (* backward SOR: D (x'-x) = w (b - (L+D) x - U x') *)
    (exists x', bsorb inv A x b w = Ok x' /\ length x' = n /\
       solves n (Dp A) (fun i => vget x' i - vget x i)
         (fun i => w * (vget b i - dense_mv n (fun i j => Lp A i j + Dp A i j) (vget x) i - dense_mv n (Up A) (vget x') i))).
  Proof.
    intros Hw HW HD HI Hx Hb.
    assert (KW : forall i u, den A i i * (w * u) = w * (den A i i * u)).
    { intros. rewrite !rmul_assoc. f_equal. symmetry. apply Hw. }
    split; [|split; [|split]].
    - destruct (jac_char n A HW HD HI x b w Hx) as (v & E & L & H). eexists. split; [exact E|]. split; [rewrite map_length, combine_length; lia|].
      intros i Hi. rewrite dense_D by auto. rewrite (vget_map2 n (fun a c => a + w * c)) by auto. specialize (H i Hi).
      rewrite dense_LDU by auto. unfold dense_mv. transitivity (w * (den A i i * vget v i)); [rewrite <- KW; ncring|rewrite H; ncring].
    - destruct (gs_char n A HW HD HI x b (fun x xold => x * w + (r1 - w) * xold) Hx) as (z & E & L & H).
      eexists. exists (vget z). split; [exact E|]. split; [rewrite map_length, combine_length; lia|]. split; intros i Hi.
      + rewrite dense_add, dense_D, (H i Hi) by auto. unfold dense_mv. ncring.
      + rewrite (vget_map2 n (fun x xold => x * w + (r1 - w) * xold)) by auto. now rewrite Hw.
    - destruct (sorf_char n A HW HD HI x b w Hx) as (x' & E & L & H). exists x'. split; auto. split; auto.
      intros i Hi. destruct (H i Hi) as (u & E1 & E2). rewrite dense_D, dense_add, dense_D, E1 by auto. unfold dense_mv.
      transitivity (w * (den A i i * u)); [rewrite <- KW; ncring|rewrite E2; ncring].
    - destruct (sorb_char n A HW HD HI x b w Hx) as (x' & E & L & H). exists x'. split; auto. split; auto.
      intros i Hi. destruct (H i Hi) as (u & E1 & E2). rewrite dense_D, dense_add, dense_D, E1 by auto. unfold dense_mv.
      transitivity (w * (den A i i * u)); [rewrite <- KW; ncring|rewrite E2; ncring].
  Qed.

  (** A solution of A x = b is left unchanged by every method. *)
  Theorem C14_fixed_point n (A : smat R) (x b : vec R) (w : R) : central w -> mat_wf n n A -> diag_stored n A -> diag_invertible n A ->
    length x = n -> length b = n -> solves n (den A) (vget x) (vget b) ->
    dbjac inv A x b w = Ok x /\ dbgs inv A x b w = Ok x /\ bsorf inv A x b w = Ok x /\ bsorb inv A x b w = Ok x.
  Proof.
    intros Hw HW HD HI Hx Hb HS.
    assert (KC : forall i (u v : R), i < n -> den A i i * u = den A i i * v -> u = v).
    { intros i u v Hi E. destruct (HI i Hi) as (c & Ec). destruct (inv_ok _ _ Ec) as [_ H1].
      rewrite <- (rmul_1_l _ u), <- (rmul_1_l _ v), <- H1, <- !rmul_assoc. now rewrite E. }
    assert (K0 : forall i (u : R), i < n -> den A i i * u = r0 -> u = r0).
    { intros i u Hi E. apply (KC i); auto. rewrite E. symmetry. apply rmul_0_r. }
    assert (HS' : forall i, i < n -> vget b i = sum n (fun j => Lp A i j * vget x j) + den A i i * vget x i + sum n (fun j => Up A i j * vget x j)).
    { intros i Hi. rewrite <- (HS i Hi). rewrite dense_LDU by auto. reflexivity. }
    split; [|split; [|split]].
    - destruct (jac_char n A HW HD HI x b w Hx) as (v & E & L & H). rewrite E. f_equal.
      apply vec_ext; rewrite map_length, combine_length; [lia|]. intros i Hi. assert (Hi' : i < n) by lia.
      rewrite (vget_map2 n (fun a c => a + w * c)) by auto. rewrite (K0 i (vget v i)); auto; [ncring|].
      rewrite (H i Hi'), (HS' i Hi'). ncring.
    - destruct (gs_char n A HW HD HI x b (fun x xold => x * w + (r1 - w) * xold) Hx) as (z & E & L & H).
      assert (Z : forall i, i < n -> vget z i = vget x i).
      { intros i. induction i as [i IH] using lt_wf_ind. intros Hi. apply (KC i); auto. rewrite (H i Hi), (HS' i Hi).
        rewrite (sum_ext n (fun j => Lp A i j * vget z j) (fun j => Lp A i j * vget x j)); [ncring|].
        intros j Hj. unfold Lp. destruct (Nat.ltb_spec j i); [now rewrite IH|]. now rewrite !rmul_0_l. }
      unfold dbgs. rewrite E. f_equal.
      apply vec_ext; rewrite map_length, combine_length; [lia|]. intros i Hi. assert (Hi' : i < n) by lia.
      rewrite (vget_map2 n (fun x xold => x * w + (r1 - w) * xold)) by auto. rewrite Z by auto. rewrite <- Hw. ncring.
    - destruct (sorf_char n A HW HD HI x b w Hx) as (x' & E & L & H). rewrite E. f_equal. apply vec_ext; [congruence|].
      rewrite L. intros i. induction i as [i IH] using lt_wf_ind. intros Hi. destruct (H i Hi) as (u & E1 & E2). rewrite E1.
      rewrite (K0 i u); auto; [ncring|]. rewrite E2, (HS' i Hi).
      rewrite (sum_ext n (fun j => Lp A i j * vget x' j) (fun j => Lp A i j * vget x j)); [ncring|].
      intros j Hj. unfold Lp. destruct (Nat.ltb_spec j i); [now rewrite IH|]. now rewrite !rmul_0_l.
    - destruct (sorb_char n A HW HD HI x b w Hx) as (x' & E & L & H). rewrite E. f_equal. apply vec_ext; [congruence|].
      rewrite L. assert (Z : forall k i, i < n -> n - i <= k -> vget x' i = vget x i).
      { induction k as [|k IH]; intros i Hi Hk; [lia|]. destruct (H i Hi) as (u & E1 & E2). rewrite E1.
        rewrite (K0 i u); auto; [ncring|]. rewrite E2, (HS' i Hi).
        rewrite (sum_ext n (fun j => Up A i j * vget x' j) (fun j => Up A i j * vget x j)); [ncring|].
        intros j Hj. unfold Up. destruct (Nat.ltb_spec i j); [rewrite IH by lia; auto|]. now rewrite !rmul_0_l. }
      intros i Hi. apply (Z n); lia.
  Qed.
End Level1.

(** ** Block recursion level 2 *)
Section Level2.
  Context {R : ring}.
  Local Open Scope ring_scope_istl.
  Variable inv : R -> option R.
  Hypothesis inv_ok : forall a b, inv a = Some b -> a * b = r1 /\ b * a = r1.

  (** block (i,j) of a matrix of matrices; an absent block is the empty (zero) matrix *)
  Definition blk (A : list (list (nat * smat R))) (i j : nat) : smat R :=
    match row_find (nth i A nil) j with Some a => a | None => nil end.
  Definition sub (v : list (vec R)) (i : nat) : vec R := nth i v nil.
  (** [n] block rows and columns of sizes [bs 0], ..., [bs (n-1)], sorted rows *)
  Definition wf2 (n : nat) (bs : nat -> nat) (A : list (list (nat * smat R))) : Prop :=
    length A = n /\ forall i, i < n -> StronglySorted lt (map fst (nth i A nil)) /\
      forall j a, In (j, a) (nth i A nil) -> j < n /\ mat_wf (bs i) (bs j) a.
  Definition vwf2 (n : nat) (bs : nat -> nat) (v : list (vec R)) : Prop := length v = n /\ forall i, i < n -> length (sub v i) = bs i.
  Definition diag2 (n : nat) (bs : nat -> nat) (A : list (list (nat * smat R))) : Prop :=
    forall i, i < n -> In i (map fst (nth i A nil)) /\ diag_stored (bs i) (blk A i i) /\ diag_invertible inv (bs i) (blk A i i).

  Lemma skipn_cons_nth {A} (l : list A) k d : k < length l -> skipn k l = nth k l d :: skipn (S k) l.
  Proof. revert k. induction l as [|a t IH]; intros k H; [simpl in H; lia|]. destruct k; [reflexivity|]. simpl in H. simpl. rewrite IH by lia. reflexivity. Qed.
  Lemma minus2 (bs : nat -> nat) N (row : list (nat * smat R)) (v : list (vec R)) : forall r, length r = N ->
    (forall j a, In (j, a) row -> mat_wf N (bs j) a /\ length (nth j v nil) = bs j) ->
    length (minus_all nil bcrs_mmv row v r) = N /\
    forall k, k < N -> vget (minus_all nil bcrs_mmv row v r) k =
      vget r k - lsum (map (fun e => dense_mv (bs (fst e)) (den (snd e)) (vget (sub v (fst e))) k) row).
  Proof.
    induction row as [|[j a] t IH]; intros r Hr H.
    - split; auto. intros k Hk. cbn. ncring.
    - destruct (H j a (or_introl eq_refl)) as [Ha Hv].
      destruct (C09_products N (bs j) a (nth j v nil) r Ha Hv Hr) as (_ & _ & [L M] & _).
      destruct (IH (bcrs_mmv a (nth j v nil) r) L) as [L2 M2]; [intros; apply H; right; auto|].
      split; [exact L2|]. intros k Hk. change (minus_all nil bcrs_mmv ((j, a) :: t) v r) with (minus_all nil bcrs_mmv t v (bcrs_mmv a (nth j v nil) r)).
      rewrite M2, M by auto. cbn [map lsum fst snd]. unfold dense_mv, sub. ncring.
  Qed.

  Lemma lsum_find (G : nat -> smat R -> R) m (row : list (nat * smat R)) : NoDup (map fst row) -> Forall (fun e => fst e < m) row ->
    (forall j, G j nil = r0) ->
    lsum (map (fun e => G (fst e) (snd e)) row) = sum m (fun j => G j (match row_find row j with Some a => a | None => nil end)).
  Proof.
    intros HN HF HG. induction row as [|[k a] t IH]; simpl.
    - symmetry. apply sum_zero. auto.
    - simpl in HN. inversion HN; inversion HF; subst. simpl in *. rewrite IH by auto.
      rewrite (sum_remove m k (fun j => G j (match (if k =? j then Some a else row_find t j) with Some a => a | None => nil end))) by auto.
      rewrite Nat.eqb_refl. f_equal. apply sum_ext. intros j Hj. rewrite (Nat.eqb_sym k j).
      destruct (Nat.eqb_spec j k) as [->|]; auto. destruct (row_find t k) as [b|] eqn:Ef; auto. exfalso. apply H1.
      clear - Ef. induction t as [|[l c] t IH]; simpl in *; [discriminate|]. destruct (Nat.eqb_spec l k); auto.
  Qed.
  Lemma find_app_lo (lo : list (nat * smat R)) l j i : Forall (fun e => fst e < i) lo -> i <= j -> row_find (lo ++ l) j = row_find l j.
  Proof.
    intros H Hj. induction lo as [|[k a] t IH]; simpl; auto. inversion H; subst. simpl in *. destruct (Nat.eqb_spec k j); [lia|auto].
  Qed.
  Lemma find_app_hi (lo : list (nat * smat R)) l j i : Forall (fun e => i <= fst e) l -> j < i -> row_find (lo ++ l) j = row_find lo j.
  Proof.
    intros H Hj. assert (N : row_find l j = None).
    { induction l as [|[k a] t IH]; simpl; auto. inversion H; subst. simpl in *. destruct (Nat.eqb_spec k j); [lia|auto]. }
    induction lo as [|[k a] t IH]; simpl; auto. destruct (Nat.eqb_spec k j); auto.
  Qed.
  Lemma den_nil i j : den (nil : smat R) i j = r0.
  Proof. unfold den. destruct i; reflexivity. Qed.
  Lemma NoDup_map_app {A} (l1 l2 : list (nat * A)) : NoDup (map fst (l1 ++ l2)) -> NoDup (map fst l1) /\ NoDup (map fst l2).
  Proof.
    rewrite map_app. induction (map fst l1) as [|a t IH]; simpl; intros H; [split; [constructor|auto]|]. inversion H; subst.
    destruct (IH H3) as [X Y]. split; auto. constructor; auto. intros HI. apply H2. apply in_or_app; auto.
  Qed.

  Lemma split2 n bs A i : wf2 n bs A -> diag2 n bs A -> i < n ->
    exists lo hi, nth i A nil = lo ++ (i, blk A i i) :: hi /\ Forall (fun e => fst e < i) lo /\ Forall (fun e => i < fst e) hi /\
      (forall (v : list (vec R)) k, lsum (map (fun e => dense_mv (bs (fst e)) (den (snd e)) (vget (sub v (fst e))) k) lo) =
          sum n (fun j => ind (j <? i) (dense_mv (bs j) (den (blk A i j)) (vget (sub v j)) k))) /\
      (forall (v : list (vec R)) k, lsum (map (fun e => dense_mv (bs (fst e)) (den (snd e)) (vget (sub v (fst e))) k) hi) =
          sum n (fun j => ind (i <? j) (dense_mv (bs j) (den (blk A i j)) (vget (sub v j)) k))).
  Proof.
    intros [HL HW] HD Hi. destruct (HW i Hi) as [HS HB]. destruct (HD i Hi) as [Hii _].
    destruct (split_row _ i HS Hii) as (lo & a & hi & E & H1 & H2).
    assert (Ea : blk A i i = a) by (unfold blk; rewrite E, row_find_split; auto).
    exists lo, hi. rewrite Ea. split; auto. split; auto. split; auto.
    pose proof (ssorted_NoDup _ HS) as ND. rewrite E in ND. destruct (NoDup_map_app _ _ ND) as [N1 N2]. simpl in N2. apply NoDup_cons_iff in N2. destruct N2 as [N2 N3].
    assert (Fl : Forall (fun e => fst e < n) lo) by (rewrite Forall_forall in *; intros e He; specialize (H1 _ He); lia).
    assert (Fh : Forall (fun e : nat * smat R => fst e < n) hi).
    { rewrite Forall_forall. intros [j b] He. simpl. apply (HB j b). rewrite E. apply in_or_app. right. right. auto. }
    assert (Z : forall v k j, dense_mv (bs j) (den (nil : smat R)) (vget (sub v j)) k = r0).
    { intros. unfold dense_mv. apply sum_zero. intros. rewrite den_nil. apply rmul_0_l. }
    split; intros v k.
    - rewrite (lsum_find (fun j a => dense_mv (bs j) (den a) (vget (sub v j)) k) n lo) by auto. apply sum_ext. intros j Hj.
      unfold ind, blk. destruct (Nat.ltb_spec j i).
      + rewrite E. rewrite (find_app_hi lo _ j i); auto. constructor; simpl; [lia|]. rewrite Forall_forall in *. intros e He. specialize (H2 _ He). lia.
      + rewrite <- (app_nil_r lo), (find_app_lo lo nil j i) by auto. simpl. apply Z.
    - rewrite (lsum_find (fun j a => dense_mv (bs j) (den a) (vget (sub v j)) k) n hi) by auto. apply sum_ext. intros j Hj.
      unfold ind, blk. destruct (Nat.ltb_spec i j).
      + rewrite E. rewrite (find_app_lo lo _ j i) by (auto; lia). simpl. destruct (Nat.eqb_spec i j); [lia|]. auto.
      + rewrite <- (app_nil_l hi), (find_app_hi nil hi j (S i)) by (auto; lia). simpl. apply Z.
  Qed.

  (** the level-2 solves use the triangular part of the diagonal blocks: the flattened system's triangular solve *)
  Theorem C13_nested_triangular_solves n bs A (v d : list (vec R)) : wf2 n bs A -> diag2 n bs A -> vwf2 n bs v -> vwf2 n bs d ->
    (exists v', bltsolve2 inv A v d = Ok v' /\ vwf2 n bs v' /\ forall i k, i < n -> k < bs i ->
        sum n (fun j => ind (j <? i) (dense_mv (bs j) (den (blk A i j)) (vget (sub v' j)) k)) +
        dense_mv (bs i) (fun r c => Lp (blk A i i) r c + Dp (blk A i i) r c) (vget (sub v' i)) k = vget (sub d i) k) /\
    (exists v', butsolve2 inv A v d = Ok v' /\ vwf2 n bs v' /\ forall i k, i < n -> k < bs i ->
        dense_mv (bs i) (fun r c => Dp (blk A i i) r c + Up (blk A i i) r c) (vget (sub v' i)) k +
        sum n (fun j => ind (i <? j) (dense_mv (bs j) (den (blk A i j)) (vget (sub v' j)) k)) = vget (sub d i) k).
  Proof.
    intros HA HD [Hv1 Hv2] [Hd1 Hd2]. pose proof HA as [HL HW].
    assert (IN : forall i lo hi, i < n -> nth i A nil = lo ++ (i, blk A i i) :: hi -> forall j a,
      (In (j, a) lo \/ In (j, a) hi \/ (j, a) = (i, blk A i i)) -> j < n /\ mat_wf (bs i) (bs j) a).
    { intros i lo hi Hi E j a Ha. apply (HW i Hi). rewrite E. apply in_or_app. simpl. destruct Ha as [Ha|[Ha|Ha]]; auto. }
    split.
    - unfold bltsolve2, bltsolve_gen. set (f := fun (i : nat) (row : list (nat * smat R)) (v : list (vec R)) (_ : unit) => _).
      (* run the loop, keeping block sizes *)
      assert (HT : forall rows k x, rows = skipn k A -> vwf2 n bs x -> exists x' e', fwd f k rows x tt = Ok (x', e') /\ vwf2 n bs x').
      { induction rows as [|row t IH]; intros k x Er Hx; simpl; [eauto|].
        assert (Hk : k < n). { destruct (Nat.lt_ge_cases k n); auto. rewrite skipn_all2 in Er by lia. discriminate. }
        assert (Erow : row = nth k A nil /\ t = skipn (S k) A).
        { rewrite (skipn_cons_nth A k nil) in Er by lia. inversion Er. auto. }
        destruct Erow as [-> ->]. unfold f at 1. destruct (split2 n bs A k HA HD Hk) as (lo & hi & E & H1 & H2 & S1 & S2).
        rewrite E, lower_loop_split by auto.
        destruct (minus2 bs (bs k) lo x (nth k d nil)) as [L1 _]; [apply Hd2; auto| |].
        { intros j a Hja. destruct (IN k lo hi Hk E j a (or_introl Hja)) as [Hj Hm]. split; auto. apply Hx; auto. }
        destruct (HD k Hk) as (_ & DS & DI). destruct (IN k lo hi Hk E k (blk A k k)) as [_ Hm]; auto.
        destruct (C13_triangular_solves inv inv_ok (bs k) (blk A k k) (nth k x nil) (minus_all nil bcrs_mmv lo x (nth k d nil)) Hm DS) as (HB & _);
          [apply Hx; auto|exact L1|]. destruct (HB DI) as (u & Eu & Lu & _). rewrite Eu. simpl. apply IH; auto.
        destruct Hx as [X1 X2]. split; [now rewrite upd_length|]. intros i Hi. unfold sub in *. rewrite nth_upd. destruct (Nat.eqb_spec k i) as [->|]; auto.
        destruct (Nat.ltb_spec i (length x)); auto; lia. }
      destruct (HT A 0 v eq_refl (conj Hv1 Hv2)) as (v' & e' & E' & [Hv'1 Hv'2]). rewrite E'. simpl. exists v'. split; auto. split; [split; auto|].
      destruct (fwd_spec nil f A 0 v tt v' e' E' ltac:(lia)) as (L' & _ & HS). intros i k Hi Hk.
      destruct (HS i ltac:(lia)) as (xi & ei & ei' & A1 & A2 & A3 & A4). simpl in A2, A3, A4. unfold f in A2.
      destruct (split2 n bs A i HA HD Hi) as (lo & hi & E & H1 & H2 & S1 & S2). rewrite E, lower_loop_split in A2 by auto.
      rewrite (minus_all_ext nil bcrs_mmv lo xi v') in A2 by (intros e He; apply A3; rewrite Forall_forall in H1; auto).
      destruct (minus2 bs (bs i) lo v' (nth i d nil)) as [L1 M1]; [apply Hd2; auto| |].
      { intros j a Hja. destruct (IN i lo hi Hi E j a (or_introl Hja)) as [Hj Hm]. split; auto. apply Hv'2; auto. }
      destruct (HD i Hi) as (_ & DS & DI). destruct (IN i lo hi Hi E i (blk A i i)) as [_ Hm]; auto.
      destruct (C13_triangular_solves inv inv_ok (bs i) (blk A i i) (nth i xi nil) (minus_all nil bcrs_mmv lo v' (nth i d nil)) Hm DS) as (HB & _).
      { rewrite A4 by auto. apply Hv2; auto. } { exact L1. }
      destruct (HB DI) as (u & Eu & Lu & Su). rewrite Eu in A2. simpl in A2. injection A2 as A2 _. subst u.
      specialize (Su k Hk). change (nth i v' nil) with (sub v' i) in Su. rewrite Su. rewrite M1 by auto. rewrite S1. unfold sub. ncring.
    - unfold butsolve2, butsolve_gen. set (f := fun (i : nat) (row : list (nat * smat R)) (v : list (vec R)) (_ : unit) => _).
      assert (HT : forall rows k x, rows = skipn k A -> vwf2 n bs x -> exists x' e', bwd f k rows x tt = Ok (x', e') /\ vwf2 n bs x').
      { induction rows as [|row t IH]; intros k x Er Hx; simpl; [eauto|].
        assert (Hk : k < n). { destruct (Nat.lt_ge_cases k n); auto. rewrite skipn_all2 in Er by lia. discriminate. }
        assert (Erow : row = nth k A nil /\ t = skipn (S k) A).
        { rewrite (skipn_cons_nth A k nil) in Er by lia. inversion Er. auto. }
        destruct Erow as [-> ->]. destruct (IH (S k) x eq_refl Hx) as (x1 & e1 & E1 & Hx1). rewrite E1. simpl. clear IH E1 Hx x. rename x1 into x, Hx1 into Hx.
        unfold f at 1. destruct (split2 n bs A k HA HD Hk) as (lo & hi & E & H1 & H2 & S1 & S2).
        rewrite E, upper_loop_split by auto.
        destruct (minus2 bs (bs k) (rev hi) x (nth k d nil)) as [L1 _]; [apply Hd2; auto| |].
        { intros j a Hja. apply in_rev in Hja. destruct (IN k lo hi Hk E j a (or_intror (or_introl Hja))) as [Hj Hm]. split; auto. apply Hx; auto. }
        destruct (HD k Hk) as (_ & DS & DI). destruct (IN k lo hi Hk E k (blk A k k)) as [_ Hm]; auto.
        destruct (C13_triangular_solves inv inv_ok (bs k) (blk A k k) (nth k x nil) (minus_all nil bcrs_mmv (rev hi) x (nth k d nil)) Hm DS) as (_ & HB & _);
          [apply Hx; auto|exact L1|]. destruct (HB DI) as (u & Eu & Lu & _). rewrite Eu. simpl. do 2 eexists. split; [reflexivity|].
        destruct Hx as [X1 X2]. split; [now rewrite upd_length|]. intros i Hi. unfold sub in *. rewrite nth_upd. destruct (Nat.eqb_spec k i) as [->|]; auto.
        destruct (Nat.ltb_spec i (length x)); auto; lia. }
      destruct (HT A 0 v eq_refl (conj Hv1 Hv2)) as (v' & e' & E' & [Hv'1 Hv'2]). rewrite E'. simpl. exists v'. split; auto. split; [split; auto|].
      destruct (bwd_spec nil f A 0 v tt v' e' E' ltac:(lia)) as (L' & _ & HS). intros i k Hi Hk.
      destruct (HS i ltac:(lia)) as (xi & ei & ei' & A1 & A2 & A3 & A4). simpl in A2, A3, A4. unfold f in A2.
      destruct (split2 n bs A i HA HD Hi) as (lo & hi & E & H1 & H2 & S1 & S2). rewrite E, upper_loop_split in A2 by auto.
      rewrite (minus_all_ext nil bcrs_mmv (rev hi) xi v') in A2 by (intros e He; apply in_rev in He; apply A4; rewrite Forall_forall in H2; auto).
      destruct (minus2 bs (bs i) (rev hi) v' (nth i d nil)) as [L1 M1]; [apply Hd2; auto| |].
      { intros j a Hja. apply in_rev in Hja. destruct (IN i lo hi Hi E j a (or_intror (or_introl Hja))) as [Hj Hm]. split; auto. apply Hv'2; auto. }
      destruct (HD i Hi) as (_ & DS & DI). destruct (IN i lo hi Hi E i (blk A i i)) as [_ Hm]; auto.
      destruct (C13_triangular_solves inv inv_ok (bs i) (blk A i i) (nth i xi nil) (minus_all nil bcrs_mmv (rev hi) v' (nth i d nil)) Hm DS) as (_ & HB & _).
      { rewrite A3 by auto. apply Hv2; auto. } { exact L1. }
      destruct (HB DI) as (u & Eu & Lu & Su). rewrite Eu in A2. simpl in A2. injection A2 as A2 _. subst u.
      specialize (Su k Hk). change (nth i v' nil) with (sub v' i) in Su. rewrite Su. rewrite M1 by auto.
      rewrite (lsum_perm _ (map (fun e => dense_mv (bs (fst e)) (den (snd e)) (vget (sub v' (fst e))) k) hi)).
      + rewrite S2. unfold sub. ncring.
      + apply Permutation.Permutation_map. apply Permutation.Permutation_sym, Permutation.Permutation_rev.
  Qed.

  (** On recursion level 2 the inner sweep starts from whatever the correction variable holds (x[0], then the
      previous row's correction; dbjac: x itself) instead of 0, so a solution is moved. *)
  Theorem C14_nested_step_moves_solution_refuted (a u x w : R) : inv a = Some u ->
    bsorf2 inv [[(0, [[(0, a)]])]] [[x]] [[a * x]] w = Ok [[x + w * (x - w * x)]] /\
    dbjac2 inv [[(0, [[(0, a)]])]] [[x]] [[a * x]] w = Ok [[x + w * (x - w * x)]].
  Proof.
    intros Hu. destruct (inv_ok _ _ Hu) as [_ H1].
    assert (E : u * (a * x - a * x - a * x) = - x).
    { replace (a * x - a * x - a * x) with (- (a * x)) by ncring. replace (u * - (a * x)) with (- (u * a * x)) by ncring. rewrite H1. ncring. }
    split; cbv -[car radd rmul ropp rsub r0 r1]; rewrite Hu; repeat (f_equal; []); rewrite E; ncring.
  Qed.
End Level2.

(** concrete, noncommutative case: 2x2 rational blocks *)
Definition q (z : Z) : Qc := Q2Qc (inject_Z z).
Definition exG : smat (M2ring Qcring) :=
  [[(0, M2 (q 2) (q 1) (q 0) (q 1)); (1, M2 (q 1) (q 0) (q 1) (q 1))]; [(0, M2 (q 0) (q 1) (q 0) (q 0)); (1, M2 (q 3) (q 3) (q 0) (q 2))]].
Example C13_nonvacuous : mat_wf 2 2 exG /\ diag_stored 2 exG /\ diag_invertible (R := M2ring Qcring) M2Qinv 2 exG /\
  exists v', bltsolve (R := M2ring Qcring) M2Qinv exG [r0; r0] [r1; r1] = Ok v'.
Proof.
  split; [|split; [|split]].
  - split; [reflexivity|]. repeat constructor; cbn; lia.
  - intros [|[|i]] Hi; cbn; auto; lia.
  - intros [|[|i]] Hi; [| |lia]; eexists; vm_compute; reflexivity.
  - eexists. vm_compute. reflexivity.
Qed.
Example C14_nested_nonvacuous : bsorf2 (R := Qcring) Qcinv_opt [[(0, [[(0, q 2)]])]] [[q 1]] [[q 2]] (Q2Qc (1 # 2)) = Ok [[Q2Qc (5 # 4)]].
Proof. vm_compute. repeat f_equal. Qed.
Print Assumptions C13_triangular_solves.
Print Assumptions C13_relaxed_triangular_solves.
Print Assumptions C13_nested_triangular_solves.
Print Assumptions C14_sweeps.
Print Assumptions C14_fixed_point.
Print Assumptions C14_nested_step_moves_solution_refuted.
