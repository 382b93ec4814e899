(** * Parallel scalar product, norm, projection, overlapping Schwarz operator and preconditioners
      (dune/istl/owneroverlapcopy.hh, schwarz.hh): C30, C33 *)
From Coq Require Import Arith List Lia Bool Sorted Permutation ZArith.
From Verif Require Import Ring RingInst Sums Outcome Sparse MatVec Parallel ParComm.
Import ListNotations.
Open Scope nat_scope.

Section Dot.
  Context {R : ring}.
  Local Open Scope ring_scope_istl.
  (** the mask, owneroverlapcopy.hh:402-410 (the same code in norm, :430-438): resized and rebuilt only when its size differs from the vector's *)
  Fixpoint mask_set (s : pis) (m : list R) : outcome (list R) :=
    match s with
    | nil => Ok m
    | e :: t => if attr_eqb (e_a e) Owner then mask_set t m
                else if e_l e <? length m then mask_set t (upd m (e_l e) r0) else UB
    end.
  Definition get_mask (s : pis) (m : list R) (n : nat) : outcome (list R) :=
    if length m =? n then Ok m else mask_set s (repeat r1 n).
  (** OwnerOverlapCopyCommunication::dot, :398-416, and norm, :425-444, up to the global sum; [h] is the list of x[i]*y[i], resp. of two_norm2(x[i]).
      Returns the local sum and the mask kept for later calls. *)
  Definition masked_sum (s : pis) (m : list R) (h : list R) : outcome (R * list R) :=
    obind (get_mask s m (length h)) (fun m' => Ok (sum (length h) (fun i => vget h i * vget m' i), m')).
  (** a history of calls on one process *)
  Fixpoint local_sums (s : pis) (m : list R) (hs : list (list R)) : outcome (list R) :=
    match hs with
    | nil => Ok nil
    | h :: t => obind (masked_sum s m h) (fun r => obind (local_sums s (snd r) t) (fun rs => Ok (fst r :: rs)))
    end.
  (** the result of the k-th call on every process: MPI_Allreduce of the local sums (cc.sum, :415) *)
  Definition global_sum (P : nat) (parts : nat -> list R) (k : nat) : R := sum P (fun p => vget (parts p) k).

  (** *** proofs *)
  Definition mask_val (s : pis) (l : nat) : R := if existsb (fun e => (e_l e =? l) && negb (attr_eqb (e_a e) Owner)) s then r0 else r1.
  Lemma mask_set_spec s : forall m : list R, Forall (fun e => e_l e < length m) s ->
    exists m', mask_set s m = Ok m' /\ length m' = length m /\ forall l, l < length m -> vget m' l = if existsb (fun e => (e_l e =? l) && negb (attr_eqb (e_a e) Owner)) s then r0 else vget m l.
  Proof.
    induction s as [|e t IH]; intros m HF; cbn [mask_set existsb]; [exists m; auto|]. inversion HF as [|? ? H1 H2]. destruct (attr_eqb (e_a e) Owner) eqn:EA.
    - destruct (IH m H2) as (m' & E & L & V). exists m'. split; [auto|]. split; [auto|]. intros l' Hl. cbn [negb]. rewrite V, andb_false_r by auto. reflexivity.
    - destruct (Nat.ltb_spec (e_l e) (length m)); [|lia]. destruct (IH (upd m (e_l e) r0)) as (m' & E & L & V); [rewrite upd_length; auto|]. rewrite upd_length in *. exists m'. split; [auto|]. split; [auto|].
      intros l0 Hl. rewrite V by auto. cbn [negb]. rewrite andb_true_r. destruct (Nat.eqb_spec (e_l e) l0) as [<-|Hn]; cbn [orb].
      + destruct (existsb _ t); auto. unfold vget. apply nth_upd_eq; auto.
      + destruct (existsb _ t); auto. unfold vget. apply nth_upd_ne; auto.
  Qed.
  Definition mask_ok (s : pis) (m : list R) : Prop := forall l, l < length m -> vget m l = mask_val s l.
  Lemma get_mask_spec s m n : mask_ok s m -> Forall (fun e => e_l e < n) s -> exists m', get_mask s m n = Ok m' /\ length m' = n /\ mask_ok s m'.
  Proof.
    intros HM HF. unfold get_mask. destruct (Nat.eqb_spec (length m) n) as [E|E]; [exists m; auto|].
    destruct (mask_set_spec s (repeat r1 n)) as (m' & E1 & L & V); [rewrite repeat_length; auto|]. rewrite repeat_length in *. exists m'. repeat split; auto. intros l Hl. rewrite L in Hl. rewrite V by auto. unfold mask_val, vget. rewrite (nth_indep (repeat r1 n) r0 r1), nth_repeat by (rewrite repeat_length; auto). reflexivity.
  Qed.
  Lemma local_sums_spec s hs : forall m, mask_ok s m -> (forall h, In h hs -> Forall (fun e => e_l e < length h) s) ->
    local_sums s m hs = Ok (map (fun h => sum (length h) (fun i => vget h i * mask_val s i)) hs).
  Proof.
    induction hs as [|h t IH]; intros m HM HF; cbn [local_sums map]; auto. unfold masked_sum. destruct (get_mask_spec s m (length h) HM (HF h (or_introl eq_refl))) as (m' & E & L & HM'). rewrite E. cbn [obind fst snd].
    rewrite IH by (auto; intros; apply HF; right; auto). cbn [obind]. do 2 f_equal. apply sum_ext. intros i Hi. rewrite (HM' i) by lia. reflexivity.
  Qed.
  (** sum over the entries of an index set, by key *)
  Lemma lsum_by_key (k : entry -> nat) (f : entry -> R) N s : NoDup (map k s) -> Forall (fun e => k e < N) s ->
    lsum (map f s) = sum N (fun i => match find (fun e => k e =? i) s with Some e => f e | None => r0 end).
  Proof.
    induction s as [|a t IH]; intros HN HF; cbn [map lsum find]; [symmetry; apply sum_0|]. cbn [map] in HN. inversion HN as [|? ? N1 N2]. inversion HF as [|? ? F1 F2]. rewrite IH by auto.
    rewrite (sum_ext N (fun i => match (if k a =? i then Some a else find (fun e => k e =? i) t) with Some e => f e | None => r0 end)
               (fun i => ind (k a =? i) (f a) + match find (fun e => k e =? i) t with Some e => f e | None => r0 end)).
    - rewrite sum_add. f_equal. rewrite (sum_single N (k a)); auto; [unfold ind; rewrite Nat.eqb_refl; auto|]. intros i Hi Hn. unfold ind. destruct (Nat.eqb_spec (k a) i); congruence.
    - intros i Hi. unfold ind. destruct (Nat.eqb_spec (k a) i) as [<-|]; [|ncring]. destruct (find (fun e => k e =? k a) t) as [e|] eqn:EF; [|ncring]. apply find_some in EF. destruct EF as [EF1 EF2]. apply Nat.eqb_eq in EF2.
      exfalso. apply N1. rewrite <- EF2. apply in_map; auto.
  Qed.
  Lemma SS_NoDup l : StronglySorted lt l -> NoDup l.
  Proof. induction l as [|a t IH]; intros H; constructor; apply StronglySorted_inv in H; destruct H as [H1 H2]; auto. intros HI. rewrite Forall_forall in H2. specialize (H2 a HI). lia. Qed.

  (** ** C30 *)
  (** every global index below G is owned by exactly one process, and only these occur *)
  Definition owned_once (P G : nat) (ix : nat -> pis) : Prop :=
    unique_owner P ix /\ (forall g, g < G -> exists p l, p < P /\ holds ix p g l Owner) /\ (forall p g l a, p < P -> holds ix p g l a -> g < G).
  (** position l of process p is in no index pair *)
  Definition private (ix : nat -> pis) (p l : nat) : bool := negb (existsb (fun e => e_l e =? l) (ix p)).

  Lemma local_value n s h (H : nat -> R) G : pis_wf n s -> length h = n -> Forall (fun e => e_g e < G) s -> (forall g l a, In (mke g l a) s -> a = Owner -> vget h l = H g) ->
    sum n (fun i => vget h i * mask_val s i) = sum G (fun g => match lookup s g with Some e => if attr_eqb (e_a e) Owner then H g else r0 | None => r0 end) +
                                               sum n (fun l => if existsb (fun e => e_l e =? l) s then r0 else vget h l).
  Proof.
    intros (W1 & W2 & W3) HL HG HH.
    rewrite (sum_ext n (fun i => vget h i * mask_val s i) (fun i => match find (fun e => e_l e =? i) s with Some e => if attr_eqb (e_a e) Owner then H (e_g e) else r0 | None => r0 end + (if existsb (fun e => e_l e =? i) s then r0 else vget h i))).
    - rewrite sum_add. f_equal. rewrite <- (lsum_by_key e_l (fun e => if attr_eqb (e_a e) Owner then H (e_g e) else r0) n s W2 W3).
      rewrite (lsum_by_key e_g (fun e => if attr_eqb (e_a e) Owner then H (e_g e) else r0) G s (SS_NoDup _ W1) HG). apply sum_ext. intros g _. unfold lookup. destruct (find (fun e => e_g e =? g) s) as [e|] eqn:E; auto.
      apply find_some in E. destruct E as [_ E]. apply Nat.eqb_eq in E. rewrite E. reflexivity.
    - intros i Hi. unfold mask_val. destruct (find (fun e => e_l e =? i) s) as [[g l a]|] eqn:E.
      + apply find_some in E. destruct E as [E1 E2]. cbn [e_l] in E2. apply Nat.eqb_eq in E2. subst l. replace (existsb (fun e => e_l e =? i) s) with true by (symmetry; apply existsb_exists; exists (mke g i a); split; auto; apply Nat.eqb_refl).
        cbn [e_a e_g]. destruct a; cbn [attr_eqb].
        * replace (existsb (fun e => (e_l e =? i) && negb (attr_eqb (e_a e) Owner)) s) with false; [rewrite (HH g i Owner E1 eq_refl); ncring|]. symmetry. apply not_true_is_false. intros HE. apply existsb_exists in HE. destruct HE as [[g2 l2 a2] [HE1 HE2]].
          cbn [e_l e_a] in HE2. apply andb_true_iff in HE2. destruct HE2 as [HE2 HE3]. apply Nat.eqb_eq in HE2. subst l2. assert (EE : mke g i Owner = mke g2 i a2).
          { clear - W2 E1 HE1. induction s as [|b t IH]; [destruct E1|]. cbn [map] in W2. inversion W2 as [|? ? N1 N2]. destruct E1 as [->|E1], HE1 as [HE|HE1]; auto.
            - exfalso. apply N1. apply (in_map e_l) in HE1. exact HE1.
            - exfalso. apply N1. subst b. apply (in_map e_l) in E1. exact E1. }
          injection EE as _ <-. discriminate.
        * replace (existsb (fun e => (e_l e =? i) && negb (attr_eqb (e_a e) Owner)) s) with true; [ncring|]. symmetry. apply existsb_exists. exists (mke g i Overlap). split; auto. cbn. rewrite Nat.eqb_refl. reflexivity.
        * replace (existsb (fun e => (e_l e =? i) && negb (attr_eqb (e_a e) Owner)) s) with true; [ncring|]. symmetry. apply existsb_exists. exists (mke g i Copy). split; auto. cbn. rewrite Nat.eqb_refl. reflexivity.
      + assert (EF : forall e, In e s -> (e_l e =? i) = false) by (intros e He; apply (find_none _ _ E e He)).
        replace (existsb (fun e => e_l e =? i) s) with false. 2:{ symmetry. apply not_true_is_false. intros HE. apply existsb_exists in HE. destruct HE as [e [HE1 HE2]]. rewrite EF in HE2 by auto. discriminate. }
        replace (existsb (fun e => (e_l e =? i) && negb (attr_eqb (e_a e) Owner)) s) with false. 2:{ symmetry. apply not_true_is_false. intros HE. apply existsb_exists in HE. destruct HE as [e [HE1 HE2]]. rewrite EF in HE2 by auto. discriminate. }
        ncring.
  Qed.

  (** For every history of dot and norm calls (with unchanged index sets) the k-th result, on every process, is the sum over all global indices of the
      product formed from the owner's entries, plus the entries at positions outside the index sets.  [h k p] lists the products x[i]*y[i] (two_norm2 of x[i] for norm)
      of the k-th call on process p; H k g is the product at the owner of g. *)
  Theorem C30_global_sum P G sz ix K (h : nat -> nat -> list R) (H : nat -> nat -> R) : dist_wf P sz ix -> owned_once P G ix ->
    (forall k p, k < K -> p < P -> length (h k p) = sz p) ->
    (forall k p g l, k < K -> p < P -> holds ix p g l Owner -> vget (h k p) l = H k g) ->
    exists parts, (forall p, p < P -> local_sums (ix p) [] (map (fun k => h k p) (seq 0 K)) = Ok (parts p)) /\
      forall k, k < K -> global_sum P parts k = sum G (H k) + sum P (fun p => sum (sz p) (fun l => if private ix p l then vget (h k p) l else r0)).
  Proof.
    intros HW (HU & HO & HG) HL HH. exists (fun p => map (fun h => sum (length h) (fun i => vget h i * mask_val (ix p) i)) (map (fun k => h k p) (seq 0 K))). split.
    - intros p Hp. apply local_sums_spec; [intros l Hl; cbn in Hl; lia|]. intros h' Hh. apply in_map_iff in Hh. destruct Hh as [k [<- Hk]]. apply in_seq in Hk. rewrite HL by (auto; lia). apply (HW p Hp).
    - intros k Hk. unfold global_sum.
      rewrite (sum_ext P _ (fun p => sum G (fun g => match lookup (ix p) g with Some e => if attr_eqb (e_a e) Owner then H k g else r0 | None => r0 end) + sum (sz p) (fun l => if private ix p l then vget (h k p) l else r0))).
      + rewrite sum_add. f_equal. rewrite sum_swap. apply sum_ext. intros g Hg. destruct (HO g Hg) as [p [l [Hp HH2]]]. rewrite (sum_single P p); auto.
        * rewrite (proj2 (lookup_spec (ix p) g (mke g l Owner) (proj1 (HW p Hp)))) by (split; auto). reflexivity.
        * intros q Hq Hn. destruct (lookup (ix q) g) as [[g2 l2 a2]|] eqn:E; auto. apply (lookup_spec _ _ _ (proj1 (HW q Hq))) in E. destruct E as [E1 E2]. cbn [e_g] in E2. subst g2. cbn [e_a]. destruct a2; auto.
          exfalso. apply Hn. apply (HU g q p l2 l); auto.
      + intros p Hp. unfold vget at 1. rewrite map_map. rewrite (nth_indep _ r0 ((fun k => sum (length (h k p)) (fun i => vget (h k p) i * mask_val (ix p) i)) 0)) by (rewrite map_length, seq_length; auto).
        rewrite (map_nth (fun k => sum (length (h k p)) (fun i => vget (h k p) i * mask_val (ix p) i))), seq_nth by auto. cbn [Nat.add]. rewrite HL by auto.
        rewrite (local_value (sz p) (ix p) (h k p) (H k) G); auto; [|apply Forall_forall; intros [g l a] He; apply (HG p g l a); auto|intros g l a He ->; apply (HH k p); auto].
        f_equal. apply sum_ext. intros l Hl. unfold private. destruct (existsb _ _); reflexivity.
  Qed.
End Dot.

Section DotVectors.
  Context {R : ring} {B : Type}.
  Local Open Scope ring_scope_istl.
  Variable b0 : B.
  Variable bdot : B -> B -> R.   (* x[i]*y[i], for norm: two_norm2 of x[i] with y = x *)
  (** the products of dot(x,y), owneroverlapcopy.hh:413-414 *)
  Definition prods (x y : list B) : list R := map (fun c => bdot (fst c) (snd c)) (combine x y).
  (** Any sequence of scalar products (or norms) of distributed vectors whose owner entries are those of global vectors gx k, gy k; every local position is in the
      index set.  The k-th result on every process is the scalar product of the global vectors.  Copies and overlap may hold anything. *)
  Theorem C30_dot P G sz ix K (x y : nat -> nat -> list B) (gx gy : nat -> nat -> B) : dist_wf P sz ix -> owned_once P G ix ->
    (forall p l, p < P -> l < sz p -> exists g a, holds ix p g l a) ->
    (forall k p, k < K -> p < P -> length (x k p) = sz p /\ length (y k p) = sz p) ->
    (forall k p g l, k < K -> p < P -> holds ix p g l Owner -> nth l (x k p) b0 = gx k g /\ nth l (y k p) b0 = gy k g) ->
    exists parts, (forall p, p < P -> local_sums (ix p) [] (map (fun k => prods (x k p) (y k p)) (seq 0 K)) = Ok (parts p)) /\
      forall k, k < K -> global_sum P parts k = sum G (fun g => bdot (gx k g) (gy k g)).
  Proof.
    intros HW HO HC HL HV.
    assert (LP : forall k p, k < K -> p < P -> length (prods (x k p) (y k p)) = sz p).
    { intros k p Hk Hp. destruct (HL k p Hk Hp) as [L1 L2]. unfold prods. rewrite map_length, combine_length. lia. }
    destruct (C30_global_sum P G sz ix K (fun k p => prods (x k p) (y k p)) (fun k g => bdot (gx k g) (gy k g)) HW HO LP) as [parts [H1 H2]].
    { intros k p g l Hk Hp HH. destruct (HL k p Hk Hp) as [L1 L2]. destruct (HV k p g l Hk Hp HH) as [<- <-].
      assert (Hl : l < sz p) by (destruct (HW p Hp) as (_ & _ & HF); rewrite Forall_forall in HF; apply (HF (mke g l Owner)); exact HH).
      unfold prods, vget. rewrite (nth_indep _ r0 (bdot b0 b0)) by (rewrite map_length, combine_length; lia). change (bdot b0 b0) with ((fun c => bdot (fst c) (snd c)) (b0, b0)). rewrite map_nth, combine_nth by lia. reflexivity. }
    exists parts. split; auto. intros k Hk. rewrite H2 by auto. rewrite (sum_zero P); [ncring|]. intros p Hp. apply sum_zero. intros l Hl. unfold private. destruct (HC p l Hp Hl) as [g [a HH]].
    replace (existsb (fun e => e_l e =? l) (ix p)) with true; auto. symmetry. apply existsb_exists. exists (mke g l a). split; [exact HH|apply Nat.eqb_refl].
  Qed.
End DotVectors.

(** *** deviations *)
(** Gaussian integers with conjugation *)
Definition Gring : ring.
Proof.
  refine (mkRing (Z * Z) (0, 0)%Z (1, 0)%Z (fun a b => (fst a + fst b, snd a + snd b)%Z) (fun a b => (fst a * fst b - snd a * snd b, fst a * snd b + snd a * fst b)%Z) (fun a => (- fst a, - snd a)%Z) _ _ _ _ _ _ _ _ _);
    intros; repeat match goal with x : (Z * Z)%type |- _ => destruct x end; cbn [fst snd]; f_equal; ring.
Defined.
Definition Gconj (a : Gring) : Gring := (fst a, - snd a)%Z.
(** The sequential ScalarProduct::dot conjugates its first argument (scalarproducts.hh:60-64, x.dot(y)); the parallel one multiplies x[i]*y[i].  With one process
    owning one index, complex x = y = i gives -1 instead of 1. *)
Theorem C30_complex_dot_refuted : exists (x : list Gring),
  local_sums (R := Gring) [mke 0 0 Owner] [] [prods (R := Gring) rmul x x] = Ok [(-1, 0)%Z] /\
  sum (R := Gring) 1 (fun i => rmul (Gconj (vget x i)) (vget x i)) = (1, 0)%Z.
Proof. exists [(0, 1)%Z]. split; reflexivity. Qed.
(** The mask is kept when the index set is changed but the vector size is not: the second product still uses the first index set. *)
Theorem C30_stale_mask_refuted : exists (s1 s2 : pis) (h : list Zring) m r1 m2 r2,
  pis_wf 1 s1 /\ pis_wf 1 s2 /\ masked_sum s1 [] h = Ok (r1, m) /\ masked_sum s2 m h = Ok (r2, m2) /\ masked_sum s2 [] h = Ok (5%Z, [1%Z]) /\ r2 = 0%Z.
Proof.
  exists [mke 0 0 Copy], [mke 0 0 Owner], [5%Z], [0%Z], 0%Z, [0%Z], 0%Z.
  repeat split; try (repeat constructor; cbn; lia); cbn; repeat constructor; cbn; auto; lia.
Qed.

Section Schwarz.
  Context {R : ring}.
  Local Open Scope ring_scope_istl.
  (** project, owneroverlapcopy.hh:538-543 *)
  Fixpoint project (s : pis) (x : vec R) : outcome (vec R) :=
    match s with
    | nil => Ok x
    | e :: t => if attr_eqb (e_a e) Copy then (if e_l e <? length x then project t (upd x (e_l e) r0) else UB) else project t x
    end.
  (** OverlappingSchwarzOperator::apply, schwarz.hh:116-122; applyscaleadd, :125-130 *)
  Definition oschwarz_apply (s : pis) (A : smat R) (x y : vec R) : outcome (vec R) := project s (bcrs_umv A x (map (fun _ => r0) y)).
  Definition oschwarz_applyscaleadd (s : pis) (A : smat R) (alpha : R) (x y : vec R) : outcome (vec R) := project s (bcrs_usmv alpha A x y).

  Lemma project_spec n s x : pis_wf n s -> length x = n -> exists x', project s x = Ok x' /\ length x' = n /\
    (forall g l, In (mke g l Copy) s -> vget x' l = r0) /\ (forall l, (forall g, ~ In (mke g l Copy) s) -> vget x' l = vget x l).
  Proof.
    intros (_ & HN & HF). revert x. induction s as [|[g l a] t IH]; intros x HL; cbn [project].
    - exists x. repeat split; auto. intros g l [].
    - cbn [map e_l] in HN. inversion HN as [|? ? N1 N2]. inversion HF as [|? ? F1 F2]. cbn [e_l e_a] in *. destruct (attr_eqb a Copy) eqn:EA.
      + destruct a; try discriminate. destruct (Nat.ltb_spec l (length x)); [|lia]. destruct (IH N2 F2 (upd x l r0)) as (x' & E & L & V1 & V2); [rewrite upd_length; auto|]. exists x'. split; auto. split; auto. split.
        * intros g' l' [HI|HI]; [|eapply V1; eauto]. injection HI as <- <-. rewrite V2; [unfold vget; apply nth_upd_eq; auto|]. intros g2 H9. apply N1. apply (in_map e_l) in H9. exact H9.
        * intros l' Hl. rewrite V2 by (intros g2 H9; apply (Hl g2); right; auto). unfold vget. apply nth_upd_ne. intros <-. apply (Hl g). left; auto.
      + destruct (IH N2 F2 x HL) as (x' & E & L & V1 & V2). exists x'. split; auto. split; auto. split.
        * intros g' l' [HI|HI]; [exfalso; injection HI; intros; subst; discriminate|eapply V1; eauto].
        * intros l' Hl. apply V2. intros g2 H9. apply (Hl g2). right; auto.
  Qed.

  (** ** C33: specification.  GA is the global matrix on G indices.  Process p stores for each row of an index it holds as owner or overlap all of the global row:
      the entry of a column index it holds, and the global row is zero at the others; positions outside its index set are not coupled. *)
  Definition complete_rows (G : nat) (GA : nat -> nat -> R) (s : pis) (n : nat) (A : smat R) : Prop :=
    mat_wf n n A /\ forall g l a, In (mke g l a) s -> a <> Copy -> g < G /\
      (forall h l' b, In (mke h l' b) s -> den A l l' = GA g h) /\ (forall h, h < G -> (forall l' b, ~ In (mke h l' b) s) -> GA g h = r0) /\
      (forall l', l' < n -> (forall h b, ~ In (mke h l' b) s) -> den A l l' = r0).
  Definition agrees (s : pis) (gx : nat -> R) (x : vec R) : Prop := forall g l a, In (mke g l a) s -> vget x l = gx g.

  Lemma local_row G GA s n A gx x g l a : pis_wf n s -> Forall (fun e => e_g e < G) s -> complete_rows G GA s n A -> length x = n -> agrees s gx x -> In (mke g l a) s -> a <> Copy ->
    sum n (fun j => den A l j * vget x j) = sum G (fun h => GA g h * gx h).
  Proof.
    intros (W1 & W2 & W3) HG [HM HC] HL HX HI Ha. destruct (HC g l a HI Ha) as (Hg & C1 & C2 & C3).
    rewrite (sum_ext n _ (fun i => match find (fun e => e_l e =? i) s with Some e => GA g (e_g e) * gx (e_g e) | None => r0 end)).
    - rewrite <- (lsum_by_key e_l (fun e => GA g (e_g e) * gx (e_g e)) n s W2 W3), (lsum_by_key e_g (fun e => GA g (e_g e) * gx (e_g e)) G s (SS_NoDup _ W1) HG). apply sum_ext. intros h Hh.
      destruct (find (fun e => e_g e =? h) s) as [e|] eqn:E.
      + apply find_some in E. destruct E as [_ E]. apply Nat.eqb_eq in E. rewrite E. reflexivity.
      + rewrite C2; [ncring|auto|]. intros l' b HI'. pose proof (find_none _ _ E _ HI') as E'. cbn in E'. rewrite Nat.eqb_refl in E'. discriminate.
    - intros j Hj. destruct (find (fun e => e_l e =? j) s) as [[h l' b]|] eqn:E.
      + apply find_some in E. destruct E as [E1 E2]. cbn [e_l] in E2. apply Nat.eqb_eq in E2. subst l'. cbn [e_g]. rewrite (C1 h j b E1), (HX h j b E1). reflexivity.
      + rewrite C3; [ncring|auto|]. intros h b HI'. pose proof (find_none _ _ E _ HI') as E'. cbn in E'. rewrite Nat.eqb_refl in E'. discriminate.
  Qed.
  (** On each process apply yields (A x)_g at owner and overlap indices and 0 at copies; applyscaleadd yields y + alpha A x resp. 0. *)
  Theorem C33_overlapping_apply G GA s n A gx x y alpha : pis_wf n s -> Forall (fun e => e_g e < G) s -> complete_rows G GA s n A -> length x = n -> length y = n -> agrees s gx x ->
    (exists y', oschwarz_apply s A x y = Ok y' /\ length y' = n /\
       forall g l a, In (mke g l a) s -> vget y' l = if attr_eqb a Copy then r0 else sum G (fun h => GA g h * gx h)) /\
    (exists y', oschwarz_applyscaleadd s A alpha x y = Ok y' /\ length y' = n /\
       forall g l a, In (mke g l a) s -> vget y' l = if attr_eqb a Copy then r0 else vget y l + alpha * sum G (fun h => GA g h * gx h)).
  Proof.
    intros HW HG HC Hx Hy HX. pose proof HC as [HM _]. pose proof HW as (W1 & W2 & W3).
    assert (NC : forall g l a, In (mke g l a) s -> a <> Copy -> forall g', ~ In (mke g' l Copy) s).
    { intros g l a H1 Ha g' H2. assert (E : mke g l a = mke g' l Copy); [|injection E as _ ->; congruence]. clear - W2 H1 H2. induction s as [|b t IH]; [destruct H1|]. cbn [map] in W2. inversion W2 as [|? ? N1 N2]. destruct H1 as [->|H1], H2 as [H2|H2]; auto.
      - exfalso. apply N1. apply (in_map e_l) in H2. exact H2.
      - exfalso. apply N1. subst b. apply (in_map e_l) in H1. exact H1. }
    assert (LB : forall g l a, In (mke g l a) s -> l < n) by (intros g l a H; rewrite Forall_forall in W3; apply (W3 (mke g l a) H)).
    split.
    - destruct (C09_products n n A x (map (fun _ => r0) y) HM Hx) as [_ [[L1 V1] _]]; [rewrite map_length; auto|]. destruct (project_spec n s _ HW L1) as (y' & E & L & P1 & P2). exists y'. split; [exact E|]. split; auto.
      intros g l a HI. destruct (attr_eqb a Copy) eqn:EA; [destruct a; try discriminate; eapply P1; eauto|]. assert (Ha : a <> Copy) by (intros ->; discriminate). rewrite P2 by (eapply NC; eauto). rewrite V1 by (eapply LB; eauto).
      rewrite (local_row G GA s n A gx x g l a) by auto. unfold vget at 1. rewrite (map_nth (fun _ => r0) y r0). ncring.
    - destruct (C09_products n n A x y HM Hx Hy) as [_ [_ [_ HU]]]. destruct (HU alpha) as [L1 V1]. destruct (project_spec n s _ HW L1) as (y' & E & L & P1 & P2). exists y'. split; [exact E|]. split; auto.
      intros g l a HI. destruct (attr_eqb a Copy) eqn:EA; [destruct a; try discriminate; eapply P1; eauto|]. assert (Ha : a <> Copy) by (intros ->; discriminate). rewrite P2 by (eapply NC; eauto). rewrite V1 by (eapply LB; eauto).
      rewrite (local_row G GA s n A gx x g l a) by auto. reflexivity.
  Qed.

  (** apply on all processes followed by copyOwnerToAll(y,y) (as ParSSOR::apply, schwarz.hh:216-223, and BlockPreconditioner::apply, :337-341, do with their local results)
      represents the global vector A x on every process, at copies as well. *)
  Theorem C33_apply_and_sync P G sz ix GA (A : nat -> smat R) gx (x y y1 y2 : nat -> vec R) : dist_wf P sz ix -> owned_once P G ix ->
    (forall p, p < P -> complete_rows G GA (ix p) (sz p) (A p) /\ length (x p) = sz p /\ length (y p) = sz p /\ agrees (ix p) gx (x p)) ->
    (forall p, p < P -> oschwarz_apply (ix p) (A p) (x p) (y p) = Ok (y1 p)) -> copyOwnerToAll P ix None y1 y2 ->
    forall p, p < P -> agrees (ix p) (fun g => sum G (fun h => GA g h * gx h)) (y2 p).
  Proof.
    intros HW (HU & HO & HG) HA HY HC.
    assert (AP : forall p, p < P -> length (y1 p) = sz p /\ forall g l a, In (mke g l a) (ix p) -> vget (y1 p) l = if attr_eqb a Copy then r0 else sum G (fun h => GA g h * gx h)).
    { intros p Hp. destruct (HA p Hp) as (A1 & A2 & A3 & A4). destruct (C33_overlapping_apply G GA (ix p) (sz p) (A p) gx (x p) (y p) r0 (HW p Hp)) as [(y' & E & L & V) _]; auto.
      { apply Forall_forall. intros [g l a] He. apply (HG p g l a); auto. }
      rewrite HY in E by auto. injection E as ->. auto. }
    assert (SZ : sized P sz y1) by (intros p Hp; apply AP; auto).
    destruct (C31_in_place r0 P sz ix HW y1 y2 HU SZ HC) as (_ & HCon & HOw & _). intros p Hp g l a HI. destruct (HO g (HG p g l a Hp HI)) as [q [l' [Hq HH]]].
    unfold vget. rewrite (HCon q p g l l' a Hq Hp HH HI), (HOw q g l' Hq HH). destruct (AP q Hq) as [_ V]. apply (V g l' Owner HH).
  Qed.
End Schwarz.

(** a 1D chain of three indices distributed over the two processes of [exix]; process 0 holds rows 0 and (as a copy) 1 *)
Definition exGA (g h : nat) : Zring := if g =? h then 2%Z else if (g =? S h) || (h =? S g) then (-1)%Z else 0%Z.
Definition exA0 : smat Zring := [[(0, 1%Z)]; [(0, (-1)%Z); (1, 2%Z)]].
Definition exA1 : smat Zring := [[(0, 1%Z)]; [(0, (-1)%Z); (1, 2%Z); (2, (-1)%Z)]; [(1, (-1)%Z); (2, 2%Z)]].
Example C30_C33_nonvacuous : dist_wf 2 exsz exix /\ owned_once 2 3 exix /\ (forall p l, p < 2 -> l < exsz p -> exists g a, holds exix p g l a) /\
  complete_rows (R := Zring) 3 exGA (exix 0) 2 exA0 /\ complete_rows (R := Zring) 3 exGA (exix 1) 3 exA1 /\
  oschwarz_apply (exix 1) exA1 [1%Z; 2%Z; 3%Z] [9%Z; 9%Z; 9%Z] = Ok [0%Z; 0%Z; 4%Z].
Proof.
  destruct C31_nonvacuous as (H1 & H2 & _). split; auto. split; [split; [auto|split]|split; [|split; [|split; [|reflexivity]]]].
  - intros [|[|[|g]]] Hg; [exists 0, 1|exists 1, 1|exists 1, 2|lia]; split; auto; unfold holds; cbn; auto.
  - intros [|[|p]] g l a Hp HH; try lia; unfold holds in HH; cbn [exix In] in HH; intuition (match goal with H : mke _ _ _ = mke _ _ _ |- _ => injection H; intros; subst end; lia).
  - intros [|[|p]] l Hp Hl; try lia; cbn [exsz] in Hl.
    + destruct l as [|[|l]]; [exists 1, Copy|exists 0, Owner|lia]; unfold holds; cbn; auto.
    + destruct l as [|[|[|l]]]; [exists 0, Copy|exists 1, Owner|exists 2, Owner|lia]; unfold holds; cbn; auto.
  - split.
    + split; [reflexivity|]. repeat (constructor; [split; cbn; repeat constructor; lia|]). constructor.
    + intros g l a HI Ha. cbn [exix In] in HI. destruct HI as [HI|[HI|[]]]; injection HI as <- <- <-; [|congruence]. split; [lia|]. split; [|split].
      * intros h l' b HI. cbn [In] in HI. destruct HI as [HI|[HI|[]]]; injection HI as <- <- <-; reflexivity.
      * intros [|[|[|h]]] Hh HN; try lia; try reflexivity; exfalso; [apply (HN 1 Owner)|apply (HN 0 Copy)]; cbn; auto.
      * intros [|[|l']] Hl HN; try lia; exfalso; [apply (HN 1 Copy)|apply (HN 0 Owner)]; cbn; auto.
  - split.
    + split; [reflexivity|]. repeat (constructor; [split; cbn; repeat constructor; lia|]). constructor.
    + intros g l a HI Ha. cbn [exix In] in HI. destruct HI as [HI|[HI|[HI|[]]]]; injection HI as <- <- <-; [congruence| |].
      all: split; [lia|]; split; [|split].
      all: try (intros h l' b HI; cbn [In] in HI; destruct HI as [HI|[HI|[HI|[]]]]; injection HI as <- <- <-; reflexivity).
      all: intros [|[|[|h]]] Hh HN; try lia; exfalso.
      all: try (apply (HN 0 Copy); cbn; tauto); try (apply (HN 1 Owner); cbn; tauto); try (apply (HN 2 Owner); cbn; tauto).
Qed.
Print Assumptions C30_global_sum.
Print Assumptions C30_dot.
Print Assumptions C30_complex_dot_refuted.
Print Assumptions C30_stale_mask_refuted.
Print Assumptions C33_overlapping_apply.
Print Assumptions C33_apply_and_sync.
