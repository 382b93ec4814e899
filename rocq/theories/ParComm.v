(** * OwnerOverlapCopyCommunication: copy and add communications (dune/istl/owneroverlapcopy.hh:233-388): C31, C32 *)
From Coq Require Import Arith List Lia Bool Sorted Permutation ZArith.
From Verif Require Import Ring RingInst Sums Outcome Sparse Parallel.
Import ListNotations.
Open Scope nat_scope.

(** ** Specification vocabulary *)
Definition holds (ix : nat -> pis) (p g l : nat) (a : attr) : Prop := In (mke g l a) (ix p).
(** every process has a well-formed index set for its vectors of size [sz p] *)
Definition dist_wf (P : nat) (sz : nat -> nat) (ix : nat -> pis) : Prop := forall p, p < P -> pis_wf (sz p) (ix p).
Definition unique_owner (P : nat) (ix : nat -> pis) : Prop :=
  forall g p q l l', p < P -> q < P -> holds ix p g l Owner -> holds ix q g l' Owner -> p = q.
Definition sized {B} (P : nat) (sz : nat -> nat) (d : nat -> list B) : Prop := forall p, p < P -> length (d p) = sz p.

Section Ops.
  Context {B : Type}.
  (** a complete run of one communication over all processes, from the destination vectors [d0] to [d1].  [src = None] is the call f(x,x). *)
  Definition complete_run (op : B -> B -> B) P ix S D (src : option (nat -> list B)) (d0 d1 : nat -> list B) : Prop :=
    exists s, reach op P ix S D src (start d0) s /\ finished P s /\ forall q, q < P -> dst s q = d1 q.
  (** copyOwnerToAll, owneroverlapcopy.hh:311-319 with buildOwnerToAllInterface, :244-252 *)
  Definition copyOwnerToAll P ix src (d0 d1 : nat -> list B) : Prop := complete_run (fun _ v => v) P ix ownerSet allSet src d0 d1.
  (** copyCopyToAll, :328-336 with :279-287 *)
  Definition copyCopyToAll P ix src (d0 d1 : nat -> list B) : Prop := complete_run (fun _ v => v) P ix copySet allSet src d0 d1.
End Ops.

Section Copy.
  Context {B : Type}.
  Variable b0 : B.
  Variables (P : nat) (sz : nat -> nat) (ix : nat -> pis).
  Hypothesis HW : dist_wf P sz ix.
  Variables (src : option (nat -> list B)) (d0 : nat -> list B).
  Hypothesis Hd : sized P sz d0.
  Hypothesis Hs : match src with Some f => sized P sz f | None => True end.
  (** the values sent *)
  Definition sent (p : nat) : list B := match src with Some f => f p | None => d0 p end.
  Lemma src_sized f p : src = Some f -> p < P -> length (f p) = sz p.
  Proof. intros E Hp. rewrite E in Hs. apply Hs; auto. Qed.

  (** For any message order the call never reads or writes outside a vector and never confuses messages, it cannot deadlock, and it completes. *)
  Theorem C31_safe op S D s : reach op P ix S D src (start d0) s ->
    (forall o, step op P ix S D src s o -> exists s', o = Ok s') /\ (finished P s \/ exists s', step op P ix S D src s (Ok s')) /\
    (exists d1, complete_run op P ix S D src d0 d1).
  Proof.
    intros HR. pose proof (inv_reach b0 op P ix sz HW S D src d0 Hd src_sized s HR) as HI. split; [|split].
    - intros o HS. destruct (inv_step b0 op P ix sz HW S D src d0 Hd src_sized s o HI HS) as [s' [E _]]; eauto.
    - apply (progress b0 op P ix sz HW S D src d0 Hd src_sized s HI).
    - destruct (completes b0 op P ix sz HW S D src d0 Hd src_sized s HR) as [s' [H1 H2]]. exists (dst s'), s'. auto.
  Qed.

  Lemma fold_other (e' : entry) (l : list nat) (a : B) : (forall p, In p l -> contrib b0 ix ownerSet allSet src d0 p e' = None) ->
    fold_left (recv1 b0 (fun _ v => v) ix ownerSet allSet src d0 e') l a = a.
  Proof. revert a. induction l as [|p t IH]; intros a H; cbn [fold_left]; auto. unfold recv1 at 2. rewrite H by (left; auto). apply IH. intros; apply H; right; auto. Qed.
  Lemma contrib_none p e' : p < P -> (forall l', ~ holds ix p (e_g e') l' Owner) -> contrib b0 ix ownerSet allSet src d0 p e' = None.
  Proof.
    intros Hp H. unfold contrib. destruct (lookup (ix p) (e_g e')) as [e|] eqn:E; auto. apply (lookup_spec _ _ _ (proj1 (HW p Hp))) in E. destruct E as [E1 E2]. unfold ownerSet.
    destruct e as [g l a]. cbn [e_g e_a e_l] in *. subst g. destruct a; auto. exfalso. apply (H l). exact E1.
  Qed.
  Lemma contrib_owner p e' l' : p < P -> holds ix p (e_g e') l' Owner -> contrib b0 ix ownerSet allSet src d0 p e' = Some (nth l' (sent p) b0).
  Proof. intros Hp H. unfold contrib. rewrite (proj2 (lookup_spec (ix p) (e_g e') (mke (e_g e') l' Owner) (proj1 (HW p Hp)))) by (split; [exact H|reflexivity]). reflexivity. Qed.

  (** copyOwnerToAll(source,dest): every process gets at each index the value the owner has in source; indices it owns, indices without owner and positions outside
      the index set keep their value in dest. *)
  Theorem C31_copyOwnerToAll d1 : unique_owner P ix -> copyOwnerToAll P ix src d0 d1 -> forall q, q < P ->
    length (d1 q) = sz q /\
    (forall g l a p l', holds ix q g l a -> p < P -> p <> q -> holds ix p g l' Owner -> nth l (d1 q) b0 = nth l' (sent p) b0) /\
    (forall g l a, holds ix q g l a -> (forall p l', p < P -> p <> q -> ~ holds ix p g l' Owner) -> nth l (d1 q) b0 = nth l (d0 q) b0) /\
    (forall l, (forall g a, ~ holds ix q g l a) -> nth l (d1 q) b0 = nth l (d0 q) b0).
  Proof.
    intros HU [s [HR [HF HD]]] q Hq. rewrite <- (HD q Hq). pose proof (inv_reach b0 _ P ix sz HW _ _ src d0 Hd src_sized s HR) as HI.
    destruct (HI q Hq) as (_ & _ & I3 & I4 & I5 & I6 & I7). rewrite Forall_forall in I4. split; auto. split; [|split].
    - intros g l a p l' HH Hp Hn HO. specialize (I6 (mke g l a) HH). cbn [e_l] in I6. rewrite I6.
      destruct (in_split p (rcv s q) (HF p q Hp Hq Hn)) as [l1 [l2 E]]. rewrite E in *. rewrite fold_left_app. cbn [fold_left]. rewrite fold_other.
      + unfold recv1. rewrite (contrib_owner p (mke g l a) l') by auto. reflexivity.
      + intros r Hr. apply contrib_none; [apply (I4 r); apply in_or_app; right; right; auto|]. cbn [e_g]. intros l3 H3.
        assert (r = p) by (apply (HU g r p l3 l'); auto; apply (I4 r); apply in_or_app; right; right; auto). subst r. apply NoDup_remove_2 in I3. apply I3. apply in_or_app. right; auto.
    - intros g l a HH HN. specialize (I6 (mke g l a) HH). cbn [e_l] in I6. rewrite I6. apply fold_other. intros r Hr. destruct (I4 r Hr) as [R1 R2]. apply contrib_none; auto.
    - intros l H. apply I7. intros HI'. apply in_map_iff in HI'. destruct HI' as [[g l2 a] [E HH]]. cbn [e_l] in E. subst l2. apply (H g a). exact HH.
  Qed.
End Copy.

Section InPlace.
  Context {B : Type}.
  Variable b0 : B.
  Variables (P : nat) (sz : nat -> nat) (ix : nat -> pis).
  Hypothesis HW : dist_wf P sz ix.
  (** [d] is consistent: every process holds at each index the value of the owner *)
  Definition consistent (d : nat -> list B) : Prop :=
    forall p q g l l' a, p < P -> q < P -> holds ix p g l' Owner -> holds ix q g l a -> nth l (d q) b0 = nth l' (d p) b0.
  Lemma holds_inj q g l a l2 a2 : q < P -> holds ix q g l a -> holds ix q g l2 a2 -> l = l2 /\ a = a2.
  Proof.
    intros Hq H1 H2. destruct (HW q Hq) as [HS _]. pose proof (proj2 (lookup_spec (ix q) g (mke g l a) HS) (conj H1 eq_refl)) as E1. pose proof (proj2 (lookup_spec (ix q) g (mke g l2 a2) HS) (conj H2 eq_refl)) as E2.
    rewrite E1 in E2. injection E2 as -> ->. auto.
  Qed.
  Lemma pos_dec q l : (exists g a, holds ix q g l a) \/ (forall g a, ~ holds ix q g l a).
  Proof.
    unfold holds. destruct (in_dec Nat.eq_dec l (map e_l (ix q))) as [HI|HI].
    - left. apply in_map_iff in HI. destruct HI as [[g l2 a] [E HI]]. cbn [e_l] in E. subst l2. eauto.
    - right. intros g a H. apply HI. apply (in_map e_l) in H. exact H.
  Qed.
  Lemma owner_dec q g : (exists p l, p < P /\ p <> q /\ holds ix p g l Owner) \/ (forall p l, p < P -> p <> q -> ~ holds ix p g l Owner).
  Proof.
    unfold holds. destruct (find_or_all (fun p => negb (p =? q) && existsb (fun e => (e_g e =? g) && attr_eqb (e_a e) Owner) (ix p)) (seq 0 P)) as [[p [H1 H2]]|H].
    - left. apply in_seq in H1. apply andb_true_iff in H2. destruct H2 as [H2 H3]. apply negb_true_iff in H2. apply Nat.eqb_neq in H2. apply existsb_exists in H3. destruct H3 as [[g' l a] [HI HE]]. cbn [e_g e_a] in HE.
      apply andb_true_iff in HE. destruct HE as [HE1 HE2]. apply Nat.eqb_eq in HE1. subst g'. destruct a; try discriminate. exists p, l. repeat split; auto. lia.
    - right. intros p l Hp Hn HI. specialize (H p ltac:(apply in_seq; lia)). apply andb_false_iff in H. destruct H as [H|H]; [apply negb_false_iff in H; apply Nat.eqb_eq in H; congruence|].
      enough (existsb (fun e => (e_g e =? g) && attr_eqb (e_a e) Owner) (ix p) = true) by congruence. apply existsb_exists. exists (mke g l Owner). split; auto. cbn. rewrite Nat.eqb_refl. reflexivity.
  Qed.
  Lemma vext (x y : list B) n : length x = n -> length y = n -> (forall l, nth l x b0 = nth l y b0) -> x = y.
  Proof. intros H1 H2 H. apply (nth_ext x y b0 b0); [congruence|auto]. Qed.
  (** copyOwnerToAll(x,x): the result is consistent, owners keep their values, consistent vectors are not changed (so the call is idempotent), and the
      result does not depend on the order of messages. *)
  Theorem C31_in_place d0 d1 : unique_owner P ix -> sized P sz d0 -> copyOwnerToAll P ix None d0 d1 ->
    sized P sz d1 /\ consistent d1 /\
    (forall p g l, p < P -> holds ix p g l Owner -> nth l (d1 p) b0 = nth l (d0 p) b0) /\
    (consistent d0 -> forall q, q < P -> d1 q = d0 q) /\
    (forall d2, copyOwnerToAll P ix None d0 d2 -> forall q, q < P -> d2 q = d1 q) /\
    (forall d2, copyOwnerToAll P ix None d1 d2 -> forall q, q < P -> d2 q = d1 q).
  Proof.
    intros HU Hd HC.
    assert (OWN : forall d0 d1, sized P sz d0 -> copyOwnerToAll P ix None d0 d1 -> forall p g l, p < P -> holds ix p g l Owner -> nth l (d1 p) b0 = nth l (d0 p) b0).
    { clear d0 d1 Hd HC. intros d0 d1 Hd HC p g l Hp H. destruct (C31_copyOwnerToAll b0 P sz ix HW None d0 Hd I d1 HU HC p Hp) as (_ & _ & T & _). apply (T g l Owner); auto. intros r l' Hr Hn H2. apply Hn. apply (HU g r p l' l); auto. }
    assert (CON : forall d0 d1, sized P sz d0 -> copyOwnerToAll P ix None d0 d1 -> consistent d1).
    { clear d0 d1 Hd HC. intros d0 d1 Hd HC p q g l l' a Hp Hq H1 H2. destruct (Nat.eq_dec p q) as [->|Hn].
      - destruct (holds_inj q g l' Owner l a Hq H1 H2) as [-> _]. reflexivity.
      - destruct (C31_copyOwnerToAll b0 P sz ix HW None d0 Hd I d1 HU HC q Hq) as (_ & T & _). rewrite (T g l a p l') by auto. cbn [sent]. symmetry. eapply OWN; eauto. }
    assert (KEEP : forall d0 d1, sized P sz d0 -> copyOwnerToAll P ix None d0 d1 -> consistent d0 -> forall q, q < P -> d1 q = d0 q).
    { clear d0 d1 Hd HC. intros d0 d1 Hd HC HK q Hq. destruct (C31_copyOwnerToAll b0 P sz ix HW None d0 Hd I d1 HU HC q Hq) as (T0 & T1 & T2 & T3). apply (vext _ _ (sz q)); [auto|auto|]. intros l.
      destruct (pos_dec q l) as [[g [a H]]|H]; [|auto]. destruct (owner_dec q g) as [[p [l' [Hp [Hn HO]]]]|HN].
      - rewrite (T1 g l a p l') by auto. cbn [sent]. symmetry. eapply HK; eauto.
      - apply (T2 g l a); auto. }
    assert (SZ : sized P sz d1). { intros q Hq. apply (C31_copyOwnerToAll b0 P sz ix HW None d0 Hd I d1 HU HC q Hq). }
    split; auto. split; [exact (CON d0 d1 Hd HC)|]. split; [exact (OWN d0 d1 Hd HC)|]. split; [exact (KEEP d0 d1 Hd HC)|]. split.
    - intros d2 HC2 q Hq. destruct (C31_copyOwnerToAll b0 P sz ix HW None d0 Hd I d1 HU HC q Hq) as (T0 & T1 & T2 & T3). destruct (C31_copyOwnerToAll b0 P sz ix HW None d0 Hd I d2 HU HC2 q Hq) as (U0 & U1 & U2 & U3).
      apply (vext _ _ (sz q)); [auto|auto|]. intros l. destruct (pos_dec q l) as [[g [a H]]|H]; [|rewrite T3, U3 by auto; auto]. destruct (owner_dec q g) as [[p [l' [Hp [Hn HO]]]]|HN].
      + rewrite (T1 g l a p l'), (U1 g l a p l') by auto. auto.
      + rewrite (T2 g l a), (U2 g l a) by auto. auto.
    - intros d2 HC2. exact (KEEP d1 d2 SZ HC2 (CON d0 d1 Hd HC)).
  Qed.
End InPlace.

Section Add.
  Context {R : ring}.
  Local Open Scope ring_scope_istl.
  Variables (P : nat) (sz : nat -> nat) (ix : nat -> pis).
  Hypothesis HW : dist_wf P sz ix.
  (** addOwnerOverlapToAll, owneroverlapcopy.hh:345-353 with :233-242; addOwnerCopyToAll, :362-370 with :254-264; addOwnerCopyToOwnerCopy, :379-387 with :266-277 *)
  Definition addOwnerOverlapToAll src (d0 d1 : nat -> vec R) : Prop := complete_run (fun a v => a + v) P ix ownerOverlapSet (fun a => ownerOverlapSet a || attr_eqb a Copy) src d0 d1.
  Definition addOwnerCopyToAll src (d0 d1 : nat -> vec R) : Prop := complete_run (fun a v => a + v) P ix ownerCopySet (fun a => ownerCopySet a || attr_eqb a Overlap) src d0 d1.
  Definition addOwnerCopyToOwnerCopy src (d0 d1 : nat -> vec R) : Prop := complete_run (fun a v => a + v) P ix ownerCopySet ownerCopySet src d0 d1.

  (** [c p] is the value process p contributes for global index g: its source value if it holds g with an attribute in S, else 0 *)
  Definition contribution (S : attr -> bool) (x : nat -> vec R) (g : nat) (c : nat -> R) : Prop :=
    forall p, p < P -> (forall l a, holds ix p g l a -> c p = if S a then nth l (x p) r0 else r0) /\ ((forall l a, ~ holds ix p g l a) -> c p = r0).

  Lemma add_result S D src (d0 d1 : nat -> vec R) : sized P sz d0 -> (match src with Some f => sized P sz f | None => True end) ->
    complete_run (fun a v => a + v) P ix S D src d0 d1 -> forall q, q < P -> length (d1 q) = sz q /\
      (forall g l a c, holds ix q g l a -> contribution S (sent src d0) g c -> vget (d1 q) l = vget (d0 q) l + (if D a then sum P (fun p => if p =? q then r0 else c p) else r0)) /\
      (forall l, (forall g a, ~ holds ix q g l a) -> vget (d1 q) l = vget (d0 q) l).
  Proof.
    intros Hd Hs [s [HR [HF HD]]] q Hq. rewrite <- (HD q Hq).
    assert (HSS : forall f p, src = Some f -> p < P -> length (f p) = sz p) by (intros f p E Hp; rewrite E in Hs; apply Hs; auto).
    pose proof (inv_reach r0 _ P ix sz HW _ _ src d0 Hd HSS s HR) as HI. pose proof (finished_perm r0 _ P ix sz _ _ src d0 s q HI HF Hq) as HP.
    destruct (HI q Hq) as (_ & _ & I3 & I4 & I5 & I6 & I7). split; auto. split.
    - intros g l a c HH HCt. specialize (I6 (mke g l a) HH). cbn [e_l] in I6. unfold vget. rewrite I6.
      assert (FE : forall L acc, Forall (fun p => p < P /\ p <> q) L -> fold_left (recv1 r0 (fun a v => a + v) ix S D src d0 (mke g l a)) L acc = acc + (if D a then lsum (map c L) else r0)).
      { induction L as [|p t IH]; intros acc HL; cbn [fold_left map lsum]; [destruct (D a); ncring|]. inversion HL as [|? ? [L1 L2] L3]. rewrite IH by auto. unfold recv1, contrib. cbn [e_g e_a].
        destruct (HCt p L1) as [C1 C2]. destruct (lookup (ix p) g) as [[g' l' a']|] eqn:EL.
        - apply (lookup_spec _ _ _ (proj1 (HW p L1))) in EL. destruct EL as [EL1 EL2]. cbn [e_g] in EL2. subst g'. rewrite (C1 l' a' EL1). cbn [e_a e_l]. destruct (S a'), (D a); cbn [andb]; unfold S0, sent; destruct src; ncring.
        - rewrite C2; [destruct (D a); ncring|]. intros l2 a2 H2. apply lookup_none in EL. apply EL. apply (in_map e_g) in H2. exact H2. }
      rewrite FE by auto. destruct (D a); auto. f_equal. rewrite (lsum_perm (map c (rcv s q)) _ (Permutation_map c HP)). rewrite <- lsum_seq. generalize (seq 0 P). intros L. induction L as [|p t IH]; auto. cbn [filter map lsum].
      destruct (p =? q); cbn [negb map lsum]; rewrite <- IH; ncring.
    - intros l H. apply I7. intros HI'. apply in_map_iff in HI'. destruct HI' as [[g l2 a] [E HH]]. cbn [e_l] in E. subst l2. apply (H g a). exact HH.
  Qed.
  Lemma sum_but n q (c : nat -> R) : q < n -> c q + sum n (fun p => if p =? q then r0 else c p) = sum n c.
  Proof.
    intros Hq. rewrite (sum_ext n c (fun p => ind (p =? q) (c p) + (if p =? q then r0 else c p))).
    - rewrite sum_add. f_equal. rewrite (sum_single n q) by (auto; intros i Hi Hn; unfold ind; destruct (Nat.eqb_spec i q); congruence). unfold ind. rewrite Nat.eqb_refl. reflexivity.
    - intros i Hi. unfold ind. destruct (i =? q); ncring.
  Qed.
  (** addOwnerCopyToOwnerCopy(y,y): at each owner or copy index the result is the sum of the values of all processes holding the index as owner or copy;
      overlap indices and positions outside the index set are unchanged -- for every message order. *)
  Theorem C32_addOwnerCopyToOwnerCopy d0 d1 : sized P sz d0 -> addOwnerCopyToOwnerCopy None d0 d1 -> forall q, q < P -> length (d1 q) = sz q /\
    (forall g l a c, holds ix q g l a -> a <> Overlap -> contribution ownerCopySet d0 g c -> vget (d1 q) l = sum P c) /\
    (forall g l, holds ix q g l Overlap -> vget (d1 q) l = vget (d0 q) l) /\
    (forall l, (forall g a, ~ holds ix q g l a) -> vget (d1 q) l = vget (d0 q) l).
  Proof.
    intros Hd HR q Hq. destruct (add_result _ _ None d0 d1 Hd I HR q Hq) as (T0 & T1 & T2). split; auto. split; [|split; auto].
    - intros g l a c HH Ha HC. rewrite (T1 g l a c HH HC). replace (ownerCopySet a) with true by (destruct a; auto; congruence). rewrite <- (sum_but P q c Hq). f_equal. destruct (HC q Hq) as [C1 _]. rewrite (C1 l a HH).
      destruct a; auto; congruence.
    - intros g l HH. assert (HC : exists c, contribution ownerCopySet d0 g c).
      { exists (fun p => match lookup (ix p) g with Some e => if ownerCopySet (e_a e) then nth (e_l e) (d0 p) r0 else r0 | None => r0 end). intros p Hp. split.
        - intros l' a' H'. rewrite (proj2 (lookup_spec (ix p) g (mke g l' a') (proj1 (HW p Hp)))) by (split; auto). reflexivity.
        - intros H'. destruct (lookup (ix p) g) as [[g2 l2 a2]|] eqn:E; auto. apply (lookup_spec _ _ _ (proj1 (HW p Hp))) in E. destruct E as [E1 E2]. cbn in E2. subst g2. exfalso. apply (H' l2 a2). exact E1. }
      destruct HC as [c HC]. rewrite (T1 g l Overlap c HH HC). cbn [ownerCopySet attr_eqb orb]. ncring.
  Qed.
  (** addOwnerOverlapToAll(x,y) and addOwnerCopyToAll(x,y): the contributions of the other processes are added once each *)
  Theorem C32_addToAll S d0 d1 src : (S = ownerOverlapSet /\ addOwnerOverlapToAll src d0 d1) \/ (S = ownerCopySet /\ addOwnerCopyToAll src d0 d1) ->
    sized P sz d0 -> (match src with Some f => sized P sz f | None => True end) -> forall q, q < P -> length (d1 q) = sz q /\
    (forall g l a c, holds ix q g l a -> contribution S (sent src d0) g c -> vget (d1 q) l = vget (d0 q) l + sum P (fun p => if p =? q then r0 else c p)) /\
    (forall l, (forall g a, ~ holds ix q g l a) -> vget (d1 q) l = vget (d0 q) l).
  Proof.
    intros [[-> HR]|[-> HR]] Hd Hs q Hq.
    - destruct (add_result _ _ src d0 d1 Hd Hs HR q Hq) as (T0 & T1 & T2). split; auto. split; auto. intros g l a c HH HC. rewrite (T1 g l a c HH HC). destruct a; reflexivity.
    - destruct (add_result _ _ src d0 d1 Hd Hs HR q Hq) as (T0 & T1 & T2). split; auto. split; auto. intros g l a c HH HC. rewrite (T1 g l a c HH HC). destruct a; reflexivity.
  Qed.
End Add.

(** Two processes sharing two of three indices *)
Definition exix (p : nat) : pis := match p with 0 => [mke 0 1 Owner; mke 1 0 Copy] | 1 => [mke 0 0 Copy; mke 1 1 Owner; mke 2 2 Owner] | _ => [] end.
Definition exsz (p : nat) : nat := match p with 0 => 2 | 1 => 3 | _ => 0 end.
Definition exd (p : nat) : vec Zring := match p with 0 => [1; 2]%Z | 1 => [3; 4; 5]%Z | _ => [] end.
Example C31_nonvacuous : dist_wf 2 exsz exix /\ unique_owner 2 exix /\ sized 2 exsz exd /\ (exists d1, copyOwnerToAll 2 exix None exd d1) /\ exists d1, addOwnerCopyToOwnerCopy 2 exix None exd d1.
Proof.
  assert (W : dist_wf 2 exsz exix).
  { intros [|[|p]] Hp; try lia; (split; [|split]); cbn; repeat constructor; cbn; try lia; intuition lia. }
  assert (SZ : sized 2 exsz exd) by (intros [|[|p]] Hp; try lia; reflexivity).
  split; auto. split; [|split; auto].
  - intros g p q l l' Hp Hq H1 H2. unfold holds in *. destruct p as [|[|p]], q as [|[|q]]; try lia; cbn [exix In] in H1, H2;
      repeat match goal with H : _ \/ _ |- _ => destruct H | H : False |- _ => destruct H end; try (exfalso; congruence); auto.
  - split.
    + destruct (C31_safe (B := car Zring) 0%Z 2 exsz exix W None exd SZ I (fun _ v => v) ownerSet allSet (start exd) (reach_0 _ _ _ _ _ _ _)) as [_ [_ H]]. exact H.
    + destruct (C31_safe (B := car Zring) 0%Z 2 exsz exix W None exd SZ I radd ownerCopySet ownerCopySet (start exd) (reach_0 _ _ _ _ _ _ _)) as [_ [_ H]]. exact H.
Qed.
Print Assumptions C31_safe.
Print Assumptions C31_copyOwnerToAll.
Print Assumptions C31_in_place.
Print Assumptions C32_addOwnerCopyToOwnerCopy.
Print Assumptions C32_addToAll.
