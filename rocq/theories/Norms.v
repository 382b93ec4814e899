(** * Norms of vectors and matrices, with floating point exceptional values (bvector.hh, bcrsmatrix.hh, matrix.hh,
      multitypeblockvector.hh, multitypeblockmatrix.hh)

    A real number is NaN, an infinity or a finite rational.  [rnd] is the rounding of a finite result: the nearest
    representable number or None for overflow; only the facts collected in [rounding] are used, and IEEE 754 double and
    single precision have them.  So, unlike elsewhere, the theorems of this file hold with rounding.

    A vector is a tree: a leaf is one number; a node is a container (FieldVector, BlockVector, VariableBlockVector,
    CompressedBlockVectorWindow, MultiTypeBlockVector or a number seen as a vector of length one through
    Impl::asVector).  FieldVector and FieldMatrix norms live in dune-common; they run the same loops and are taken to. *)
From Coq Require Import List Arith Lia QArith Qcanon Qcabs.
Import ListNotations.

Inductive num : Type := NaN | PInf | MInf | Fin (q : Qc).

(** ** IEEE comparison and arithmetic on the values that occur *)
Definition nlt (a b : num) : bool :=
  match a, b with
  | NaN, _ | _, NaN => false
  | MInf, MInf => false | MInf, _ => true
  | _, MInf => false
  | PInf, _ => false | _, PInf => true
  | Fin x, Fin y => if Qclt_le_dec x y then true else false
  end.
(** std::max(a,b): returns a unless a<b *)
Definition nmax (a b : num) : num := if nlt a b then b else a.
Definition nabs (a : num) : num :=
  match a with NaN => NaN | PInf | MInf => PInf | Fin q => Fin (Qcabs q) end.

Section Norms.
  Variable rnd : Qc -> option Qc.

  Definition fin (q : Qc) : num :=
    match rnd q with Some r => Fin r | None => if Qclt_le_dec q 0 then MInf else PInf end.
  Definition nadd (a b : num) : num :=
    match a, b with
    | NaN, _ | _, NaN => NaN
    | PInf, MInf | MInf, PInf => NaN
    | PInf, _ | _, PInf => PInf
    | MInf, _ | _, MInf => MInf
    | Fin x, Fin y => fin (x + y)%Qc
    end.
  Definition sgn (x : Qc) : comparison := (x ?= 0)%Qc.
  Definition inf_of (c : comparison) : num := match c with Eq => NaN | Lt => MInf | Gt => PInf end.
  Definition nmul (a b : num) : num :=
    match a, b with
    | NaN, _ | _, NaN => NaN
    | PInf, PInf | MInf, MInf => PInf
    | PInf, MInf | MInf, PInf => MInf
    | PInf, Fin x | Fin x, PInf => inf_of (sgn x)
    | MInf, Fin x | Fin x, MInf => inf_of (CompOpp (sgn x))
    | Fin x, Fin y => fin (x * y)%Qc
    end.
  (** the divisor is never zero where the code divides; 0/0 and x/0 are left at NaN *)
  Definition ndiv (a b : num) : num :=
    match a, b with
    | NaN, _ | _, NaN => NaN
    | PInf, Fin x => inf_of (sgn x)
    | MInf, Fin x => inf_of (CompOpp (sgn x))
    | Fin _, (PInf | MInf) => Fin 0
    | Fin x, Fin y => if Qc_eq_dec y 0 then NaN else fin (x / y)%Qc
    | _, _ => NaN
    end.
  Definition zero : num := Fin 0.
  Definition one : num := Fin 1.

  (** ** Vectors *)
  Inductive vtree : Type := VLeaf (x : num) | VNode (l : list vtree).

  (** the loop of infinity_norm() for number types with NaN: bvector.hh:281-297 (block_vector_unmanaged), 905-920
      (compressed_block_vector_unmanaged), multitypeblockvector.hh:256-283; infinity_norm_real (bvector.hh:300-314,
      923-938, multitypeblockvector.hh:287-312) is the same loop over the blocks' infinity_norm_real.  [norms] are the
      blocks' norms in iteration order *)
  Definition tracked_max (norms : list num) : num :=
    let r := fold_left (fun s a => (nmax a (fst s), nadd (snd s) a)) norms (zero, one) in
    nmul (fst r) (ndiv (snd r) (snd r)).
  Fixpoint infinity_norm (t : vtree) : num :=
    match t with VLeaf x => nabs x | VNode l => tracked_max (map infinity_norm l) end.

  (** one_norm(): bvector.hh:216-222, 843-848, multitypeblockvector.hh:225-230 *)
  Definition sum_from (s : num) (norms : list num) : num := fold_left nadd norms s.
  Fixpoint one_norm (t : vtree) : num :=
    match t with VLeaf x => nabs x | VNode l => sum_from zero (map one_norm l) end.
  (** two_norm2(): bvector.hh:241-247, 868-873, multitypeblockvector.hh:243-248; a number's is x*x *)
  Fixpoint two_norm2 (t : vtree) : num :=
    match t with VLeaf x => nmul (nabs x) (nabs x) | VNode l => sum_from zero (map two_norm2 l) end.

  (** ** Matrices: a node is the list of its rows, a row the list of the entries it stores *)
  Inductive mtree : Type := MLeaf (x : num) | MNode (rows : list (list mtree)).

  (** the loop of infinity_norm() with NaN tracking, bcrsmatrix.hh:1953-1972, matrix.hh:1022-1038;
      infinity_norm_real (bcrsmatrix.hh:1976-1995, matrix.hh:1042-1058) is the same loop over infinity_norm_real.  The
      sum of a row is built by +=, starting from 0. *)
  Definition tracked_row_max (rows : list (list num)) : num :=
    let r := fold_left (fun s row => let sum := sum_from zero row in (nmax sum (fst s), nadd (snd s) sum)) rows (zero, one) in
    nmul (fst r) (ndiv (snd r) (snd r)).
  Fixpoint minfinity_norm (t : mtree) : num :=
    match t with MLeaf x => nabs x | MNode rows => tracked_row_max (map (map minfinity_norm) rows) end.
  (** MultiTypeBlockMatrix::infinity_norm, multitypeblockmatrix.hh:383-399 (infinity_norm_real: 402-418): no tracking *)
  Definition mt_infinity_norm (rows : list (list num)) : num :=
    fold_left (fun norm row => nmax (sum_from zero row) norm) rows zero.
  (** frobenius_norm2(): bcrsmatrix.hh:1889-1903, matrix.hh:976-983, multitypeblockmatrix.hh:361-373 *)
  Fixpoint frobenius2 (t : mtree) : num :=
    match t with
    | MLeaf x => nmul (nabs x) (nabs x)
    | MNode rows => fold_left (fun s row => sum_from s row) (map (map frobenius2) rows) zero
    end.
End Norms.

(** ** Specification *)
Record rounding (rnd : Qc -> option Qc) : Prop := {
  rnd_zero : rnd 0%Qc = Some 0%Qc;
  rnd_one : rnd 1%Qc = Some 1%Qc;
  rnd_mono : forall a b a' b', (a <= b)%Qc -> rnd a = Some a' -> rnd b = Some b' -> (a' <= b')%Qc;
  rnd_idem : forall a b, rnd a = Some b -> rnd b = Some b;
  rnd_opp : forall a, rnd a = Some a -> rnd (- a)%Qc = Some (- a)%Qc }.

(** numbers up to [big] are represented exactly: the usual idealisation, with overflow above *)
Definition exact_up_to (big : Qc) (rnd : Qc -> option Qc) : Prop := forall q, (Qcabs q <= big)%Qc -> rnd q = Some q.

Fixpoint leaves (t : vtree) : list num := match t with VLeaf x => [x] | VNode l => flat_map leaves l end.
Fixpoint mleaves (t : mtree) : list num := match t with MLeaf x => [x] | MNode rows => flat_map (flat_map mleaves) rows end.

(** every number of the list is a finite machine number *)
Definition finite (rnd : Qc -> option Qc) (l : list num) : Prop := forall x, In x l -> exists q, x = Fin q /\ rnd q = Some q.

(** [m] is the largest absolute value in the list (0 for an empty list) *)
Definition largest (l : list num) (m : Qc) : Prop :=
  (forall q, In (Fin q) l -> (Qcabs q <= m)%Qc) /\ (m = 0%Qc \/ exists q, In (Fin q) l /\ Qcabs q = m).

(** s + l_0 + l_1 + ... added in this order in machine arithmetic; None when it overflows *)
Fixpoint rounded_sum (rnd : Qc -> option Qc) (s : Qc) (l : list Qc) : option Qc :=
  match l with
  | nil => Some s
  | x :: t => match rnd (s + x)%Qc with Some r => rounded_sum rnd r t | None => None end
  end.

(** somewhere in the vector 1 plus the norms of the blocks of one container overflows *)
Inductive overflows (rnd : Qc -> option Qc) : vtree -> Prop :=
| ov_here l ms : Forall2 (fun t m => largest (leaves t) m) l ms -> rounded_sum rnd 1%Qc ms = None -> overflows rnd (VNode l)
| ov_below l t : In t l -> overflows rnd t -> overflows rnd (VNode l).

Definition qsum (l : list Qc) : Qc := fold_right Qcplus 0%Qc l.

(** ** Proofs *)
Section VInd.
  Variable P : vtree -> Prop.
  Hypothesis HL : forall x, P (VLeaf x).
  Hypothesis HN : forall l, (forall t, In t l -> P t) -> P (VNode l).
  Lemma vtree_ind' : forall t, P t.
  Proof.
    fix IH 1. intros [x|l]; [apply HL|]. apply HN. induction l as [|a l IHl]; [intros ? []|].
    intros t [<-|H]; [apply IH|apply IHl, H].
  Qed.
End VInd.
Section MInd.
  Variable P : mtree -> Prop.
  Hypothesis HL : forall x, P (MLeaf x).
  Hypothesis HN : forall rows, (forall r t, In r rows -> In t r -> P t) -> P (MNode rows).
  Lemma mtree_ind' : forall t, P t.
  Proof.
    fix IH 1. intros [x|rows]; [apply HL|]. apply HN. induction rows as [|r rows IHr]; [intros ? ? []|].
    intros r' t [<-|H] Ht; [|exact (IHr r' t H Ht)].
    clear IHr rows. induction r as [|a r IHl]; [destruct Ht|]. destruct Ht as [<-|Ht]; [apply IH|apply IHl, Ht].
  Qed.
End MInd.

Lemma Qcabs_pos' q : (0 <= Qcabs q)%Qc.
Proof. apply Qcabs_nonneg. Qed.

Lemma nmax_fin a b : nmax (Fin a) (Fin b) = Fin (if Qclt_le_dec a b then b else a).
Proof. unfold nmax, nlt. destruct (Qclt_le_dec a b); reflexivity. Qed.

Section Proofs.
  Variable rnd : Qc -> option Qc.
  Hypothesis HR : rounding rnd.

  Let step (s : num * num) (a : num) := (nmax a (fst s), nadd rnd (snd s) a).

  Lemma fold_snd (f : num * num -> num -> num * num) l s :
    (forall s a, snd (f s a) = nadd rnd (snd s) a) -> snd (fold_left f l s) = sum_from rnd (snd s) l.
  Proof.
    intros Hf. revert s. induction l as [|a l IH]; intros s; [reflexivity|].
    cbn [fold_left]. rewrite IH, Hf. reflexivity.
  Qed.

  (** the values a norm can have *)
  Definition normval (x : num) : Prop := x = NaN \/ x = PInf \/ exists q, x = Fin q /\ (0 <= q)%Qc /\ rnd q = Some q.

  Lemma rnd_nonneg q r : (0 <= q)%Qc -> rnd q = Some r -> (0 <= r)%Qc.
  Proof. intros H E. exact (rnd_mono _ HR 0%Qc q 0%Qc r H (rnd_zero _ HR) E). Qed.

  Lemma nadd_normval a b : normval a -> normval b -> normval (nadd rnd a b).
  Proof.
    intros [->|[->|(x & -> & Hx & Rx)]] [->|[->|(y & -> & Hy & Ry)]]; cbn; try (left; reflexivity); try (right; left; reflexivity).
    unfold fin. destruct (rnd (x + y)%Qc) eqn:E.
    - right; right. exists q. split; [reflexivity|]. split; [|exact (rnd_idem _ HR _ _ E)].
      apply (rnd_nonneg (x + y)%Qc); [|exact E]. rewrite <- (Qcplus_0_l 0). apply Qcplus_le_compat; assumption.
    - destruct (Qclt_le_dec (x + y) 0) as [L|L]; [exfalso|right; left; reflexivity].
      apply (Qclt_not_le _ _ L). rewrite <- (Qcplus_0_l 0). apply Qcplus_le_compat; assumption.
  Qed.

  Lemma sum_from_normval l : forall s, normval s -> Forall normval l -> normval (sum_from rnd s l).
  Proof.
    induction l as [|a l IH]; intros s Hs Hl; [exact Hs|]. inversion Hl; subst. apply IH; [apply nadd_normval; assumption|assumption].
  Qed.

  Lemma sum_from_NaN l : sum_from rnd NaN l = NaN.
  Proof. induction l as [|a l IH]; [reflexivity|exact IH]. Qed.
  Lemma nadd_NaN_r a : nadd rnd a NaN = NaN.
  Proof. destruct a; reflexivity. Qed.
  Lemma sum_from_NaN_in l : forall s, In NaN l -> sum_from rnd s l = NaN.
  Proof.
    induction l as [|a l IH]; intros s H; [destruct H|]. destruct H as [->|H]; [|apply IH, H].
    unfold sum_from. cbn [fold_left]. rewrite nadd_NaN_r. apply sum_from_NaN.
  Qed.
  Lemma nadd_nan_inv a b : normval a -> normval b -> nadd rnd a b = NaN -> a = NaN \/ b = NaN.
  Proof.
    intros [->|[->|(x & -> & Hx & Rx)]] [->|[->|(y & -> & Hy & Ry)]]; cbn; try tauto; try discriminate.
    unfold fin. destruct (rnd (x + y)%Qc); [discriminate|]. destruct (Qclt_le_dec (x + y) 0); discriminate.
  Qed.
  Lemma sum_from_nan_inv l : forall s, normval s -> Forall normval l -> sum_from rnd s l = NaN -> s = NaN \/ In NaN l.
  Proof.
    induction l as [|a l IH]; intros s Hs Hl H; [left; exact H|]. inversion Hl; subst.
    destruct (IH _ (nadd_normval _ _ Hs H2) H3 H) as [E|E]; [|right; right; exact E].
    destruct (nadd_nan_inv _ _ Hs H2 E) as [->| ->]; [left; reflexivity|right; left; reflexivity].
  Qed.
  Lemma nadd_inf_l b : normval b -> nadd rnd PInf b = NaN \/ nadd rnd PInf b = PInf.
  Proof. intros [->|[->|(y & -> & _)]]; cbn; auto. Qed.
  Lemma sum_from_inf l : forall s, s = NaN \/ s = PInf -> Forall normval l -> sum_from rnd s l = NaN \/ sum_from rnd s l = PInf.
  Proof.
    induction l as [|a l IH]; intros s Hs Hl; [exact Hs|]. inversion Hl; subst. apply IH; [|assumption].
    destruct Hs as [->| ->]; [left; reflexivity|apply nadd_inf_l; assumption].
  Qed.
  Lemma sum_from_inf_in l : forall s, normval s -> Forall normval l -> In PInf l -> sum_from rnd s l = NaN \/ sum_from rnd s l = PInf.
  Proof.
    induction l as [|a l IH]; intros s Hs Hl H; [destruct H|]. inversion Hl; subst.
    destruct H as [->|H].
    - apply (sum_from_inf l); [|assumption]. destruct Hs as [->|[->|(x & -> & _)]]; cbn; auto.
    - apply IH; [apply nadd_normval|..]; assumption.
  Qed.

  Lemma sum_from_fin ms : forall s, (0 <= s)%Qc -> Forall (fun m => (0 <= m)%Qc) ms ->
    sum_from rnd (Fin s) (map Fin ms) = match rounded_sum rnd s ms with Some r => Fin r | None => PInf end.
  Proof.
    induction ms as [|m ms IH]; intros s Hs Hl; [reflexivity|]. inversion Hl; subst.
    cbn [map rounded_sum]. unfold sum_from. cbn [fold_left nadd]. unfold fin.
    assert (N : (0 <= s + m)%Qc) by (rewrite <- (Qcplus_0_l 0); apply Qcplus_le_compat; assumption).
    destruct (rnd (s + m)%Qc) as [r|] eqn:Er.
    - apply IH; [|assumption]. exact (rnd_nonneg _ _ N Er).
    - destruct (Qclt_le_dec (s + m) 0) as [L|L]; [exfalso; exact (Qclt_not_le _ _ L N)|].
      clear - H2. induction ms as [|b ms IH]; [reflexivity|]. inversion H2; subst. cbn [map fold_left nadd]. apply IH. assumption.
  Qed.

  Lemma ndiv_self_inf x : x = NaN \/ x = PInf -> ndiv rnd x x = NaN.
  Proof. intros [->| ->]; reflexivity. Qed.
  Lemma nmul_NaN_r x : nmul rnd x NaN = NaN.
  Proof. destruct x; reflexivity. Qed.

  Lemma Qclt_01 : (0 < 1)%Qc.
  Proof. reflexivity. Qed.
  Lemma rsum_ge1 ms : forall s r, (1 <= s)%Qc -> Forall (fun m => (0 <= m)%Qc) ms -> rounded_sum rnd s ms = Some r -> (1 <= r)%Qc.
  Proof.
    induction ms as [|m ms IH]; intros s r Hs Hl H; cbn [rounded_sum] in H; [inversion H; subst; exact Hs|].
    inversion Hl; subst. destruct (rnd (s + m)%Qc) as [q|] eqn:Er; [|discriminate]. apply (IH q r); auto.
    apply (rnd_mono _ HR 1%Qc (s + m)%Qc 1%Qc q); [|apply HR|exact Er].
    rewrite <- (Qcplus_0_r 1). apply Qcplus_le_compat; assumption.
  Qed.
  Lemma ndiv_self_fin r : (1 <= r)%Qc -> ndiv rnd (Fin r) (Fin r) = Fin 1.
  Proof.
    intros H. cbn. destruct (Qc_eq_dec r 0) as [->|N]; [exfalso; apply (Qclt_not_le 0 1 Qclt_01 H)|].
    unfold fin. unfold Qcdiv. rewrite Qcmult_inv_r by exact N. rewrite (rnd_one _ HR). reflexivity.
  Qed.

  Definition qmax (l : list Qc) : Qc := fold_left (fun s a => if Qclt_le_dec a s then s else a) l 0%Qc.

  Lemma fold_max_fin (f : num * num -> num -> num * num) ms : (forall s a, fst (f s a) = nmax a (fst s)) ->
    forall s t, fst (fold_left f (map Fin ms) (Fin s, t)) = Fin (fold_left (fun s a => if Qclt_le_dec a s then s else a) ms s).
  Proof.
    intros Hf. induction ms as [|m ms IH]; intros s t; [reflexivity|]. cbn [map fold_left].
    rewrite (surjective_pairing (f (Fin s, t) (Fin m))), Hf. cbn [fst]. rewrite nmax_fin. apply IH.
  Qed.

  Lemma qmax_spec_gen ms : forall s, (forall m, In m ms -> (m <= fold_left (fun s a => if Qclt_le_dec a s then s else a) ms s)%Qc) /\
    (s <= fold_left (fun s a => if Qclt_le_dec a s then s else a) ms s)%Qc /\
    (fold_left (fun s a => if Qclt_le_dec a s then s else a) ms s = s \/ In (fold_left (fun s a => if Qclt_le_dec a s then s else a) ms s) ms).
  Proof.
    induction ms as [|a ms IH]; intros s; [split; [intros ? []|]; split; [apply Qcle_refl|left; reflexivity]|].
    cbn [fold_left]. destruct (Qclt_le_dec a s) as [L|L].
    - destruct (IH s) as (A & B & C). split; [|split; [exact B|destruct C; auto; right; right; assumption]].
      intros m [<-|H]; [apply (Qcle_trans _ s); [apply Qclt_le_weak, L|exact B]|apply A, H].
    - destruct (IH a) as (A & B & C). split; [|split; [apply (Qcle_trans _ a); assumption|]].
      + intros m [<-|H]; [exact B|apply A, H].
      + destruct C as [C|C]; [right; left; symmetry; exact C|right; right; exact C].
  Qed.

  Lemma qmax_repr ms : Forall (fun m => rnd m = Some m) ms -> rnd (qmax ms) = Some (qmax ms).
  Proof.
    intros H. destruct (qmax_spec_gen ms 0%Qc) as (_ & _ & [E|E]).
    - unfold qmax. rewrite E. apply HR.
    - rewrite Forall_forall in H. apply H, E.
  Qed.

  (** the loop: NaN when the tracker is not finite, else the maximum *)
  Lemma tracked_max_nan l : Forall normval l -> (sum_from rnd one l = NaN \/ sum_from rnd one l = PInf) -> tracked_max rnd l = NaN.
  Proof.
    intros _ H. unfold tracked_max. rewrite (fold_snd _ l (zero, one)) by reflexivity. cbn [snd].
    rewrite (ndiv_self_inf _ H). apply nmul_NaN_r.
  Qed.
  Lemma tracked_max_nan_in l : In NaN l -> tracked_max rnd l = NaN.
  Proof.
    intros H. unfold tracked_max. rewrite (fold_snd _ l (zero, one)) by reflexivity. cbn [snd].
    rewrite (sum_from_NaN_in l _ H). apply nmul_NaN_r.
  Qed.
  Lemma tracked_max_fin ms r : Forall (fun m => (0 <= m)%Qc) ms -> Forall (fun m => rnd m = Some m) ms ->
    rounded_sum rnd 1%Qc ms = Some r -> tracked_max rnd (map Fin ms) = Fin (qmax ms).
  Proof.
    intros H0 Hr E. unfold tracked_max. rewrite (fold_snd _ _ (zero, one)) by reflexivity. cbn [snd]. unfold zero, one.
    rewrite (fold_max_fin _ ms) by reflexivity.
    rewrite sum_from_fin by (auto; apply Qclt_le_weak, Qclt_01). rewrite E.
    rewrite ndiv_self_fin by (apply (rsum_ge1 ms 1%Qc); auto; apply Qcle_refl).
    cbn [nmul]. unfold fin. rewrite Qcmult_1_r. fold (qmax ms). rewrite (qmax_repr ms Hr). reflexivity.
  Qed.
End Proofs.

Section Theorems.
  Variable rnd : Qc -> option Qc.
  Hypothesis HR : rounding rnd.

  Lemma in_leaves_node x l : In x (leaves (VNode l)) <-> exists t, In t l /\ In x (leaves t).
  Proof. cbn [leaves]. apply in_flat_map. Qed.

  Lemma abs_repr q : rnd q = Some q -> rnd (Qcabs q) = Some (Qcabs q).
  Proof. intros H. destruct (Qcabs_case q (fun r => rnd r = Some r)); auto. intros _. apply HR, H. Qed.

  Definition wellformed (l : list num) : Prop := forall q, In (Fin q) l -> rnd q = Some q.

  Lemma wf_node l : wellformed (leaves (VNode l)) -> forall t, In t l -> wellformed (leaves t).
  Proof. intros H t Ht q Hq. apply H, in_leaves_node. eauto. Qed.

  Lemma largest_unique l a b : largest l a -> largest l b -> a = b.
  Proof.
    assert (G : forall a b, largest l a -> largest l b -> (a <= b)%Qc).
    { intros x y (A1 & A2) (B1 & B2). destruct A2 as [->|(q & Hq & <-)]; [|apply B1, Hq].
      destruct B2 as [->|(q & Hq & <-)]; [apply Qcle_refl|apply Qcabs_nonneg]. }
    intros Ha Hb. apply Qcle_antisym; apply G; assumption.
  Qed.

  Lemma largest_flat l ms : Forall2 (fun t m => largest (leaves t) m) l ms -> largest (leaves (VNode l)) (qmax ms).
  Proof.
    intros F. destruct (qmax_spec_gen ms 0%Qc) as (A & B & C). fold (qmax ms) in A, B, C. split.
    - intros q Hq. apply in_leaves_node in Hq. destruct Hq as (t & Ht & Hq).
      clear B C. revert A. induction F; intros A; [destruct Ht|]. destruct Ht as [<-|Ht].
      + apply (Qcle_trans _ y); [apply H, Hq|apply A; left; reflexivity].
      + revert A. generalize (qmax (y :: l')). intros M A. clear H IHF.
        induction F; [destruct Ht|]. destruct Ht as [<-|Ht].
        * apply (Qcle_trans _ y0); [apply H, Hq|apply A; right; left; reflexivity].
        * apply IHF; auto. intros m [<-|Hm]; apply A; [left; reflexivity|right; right; exact Hm].
    - destruct C as [C|C]; [left; exact C|]. revert C. generalize (qmax ms). intros M C.
      clear A B. induction F; [destruct C|]. destruct C as [->|C].
      + destruct H as [_ [->|(q & Hq & E)]]; [left; reflexivity|right]. exists q. split; [|exact E].
        apply in_leaves_node. exists x. split; [left; reflexivity|exact Hq].
      + destruct (IHF C) as [E|(q & Hq & E)]; [left; exact E|right]. exists q. split; [|exact E].
        apply in_leaves_node in Hq. destruct Hq as (t & Ht & Hq). apply in_leaves_node. exists t. split; [right; exact Ht|exact Hq].
  Qed.

  (** everything at once: the norm of a tree is NaN, or +inf for a single infinite number, or the largest absolute value *)
  Lemma norm_cases t : wellformed (leaves t) ->
    normval rnd (infinity_norm rnd t) /\
    (forall m, infinity_norm rnd t = Fin m -> finite rnd (leaves t) /\ largest (leaves t) m /\ ~ overflows rnd t) /\
    (infinity_norm rnd t = NaN -> In NaN (leaves t) \/ (exists l, t = VNode l) /\ ((In PInf (leaves t) \/ In MInf (leaves t)) \/ overflows rnd t)) /\
    (infinity_norm rnd t = PInf -> t = VLeaf PInf \/ t = VLeaf MInf).
  Proof.
    induction t as [x|l IH] using vtree_ind'; intros W.
    - cbn [infinity_norm leaves]. destruct x as [| | |q]; cbn [nabs].
      + split; [left; reflexivity|]. split; [discriminate|]. split; [left; left; reflexivity|discriminate].
      + split; [right; left; reflexivity|]. split; [discriminate|]. split; [discriminate|]. left; reflexivity.
      + split; [right; left; reflexivity|]. split; [discriminate|]. split; [discriminate|]. right; reflexivity.
      + assert (Rq : rnd q = Some q) by (apply W; left; reflexivity).
        split; [right; right; exists (Qcabs q); split; [reflexivity|]; split; [apply Qcabs_nonneg|apply abs_repr, Rq]|].
        split; [|split; discriminate]. intros m E. inversion E; subst. split; [|split].
        * intros y [<-|[]]. exists q. split; [reflexivity|exact Rq].
        * split; [intros p [Ep|[]]; inversion Ep; subst; apply Qcle_refl|right; exists q; split; [left; reflexivity|reflexivity]].
        * intros O. inversion O.
    - cbn [infinity_norm].
      set (ns := map (infinity_norm rnd) l).
      assert (NV : Forall (normval rnd) ns).
      { apply Forall_forall. intros y Hy. apply in_map_iff in Hy. destruct Hy as (t & <- & Ht). apply IH; [exact Ht|apply (wf_node l W), Ht]. }
      assert (Fi : (exists x, In x ns /\ (x = NaN \/ x = PInf)) \/ exists ms, ns = map Fin ms).
      { clear - NV. induction NV as [|x ns Hx NV IHn]; [right; exists nil; reflexivity|].
        destruct Hx as [->|[->|(q & -> & _)]]; [left; exists NaN; split; [left|left]; reflexivity|left; exists PInf; split; [left; reflexivity|right; reflexivity]|].
        destruct IHn as [(x & Hx & E)|(ms & ->)]; [left; exists x; split; [right; exact Hx|exact E]|right; exists (q :: ms); reflexivity]. }
      destruct Fi as [(x & Hx & [->| ->])|(ms & Ems)].
      + (* a NaN block *)
        rewrite (tracked_max_nan_in rnd ns Hx). split; [left; reflexivity|]. split; [discriminate|]. split; [|discriminate].
        intros _. apply in_map_iff in Hx. destruct Hx as (t & Et & Ht).
        destruct (IH t Ht (wf_node l W t Ht)) as (_ & _ & Q & _). destruct (Q Et) as [Hn|(_ & Hn)].
        * left. apply in_leaves_node. eauto.
        * right. split; [eauto|]. destruct Hn as [[Hn|Hn]|Hn].
          -- left; left. apply in_leaves_node. eauto.
          -- left; right. apply in_leaves_node. eauto.
          -- right. exact (ov_below rnd l t Ht Hn).
      + (* an infinite block *)
        rewrite (tracked_max_nan rnd ns NV) by (apply sum_from_inf_in; auto; right; right; exists 1%Qc; split; [reflexivity|split; [apply Qclt_le_weak, Qclt_01|apply HR]]).
        split; [left; reflexivity|]. split; [discriminate|]. split; [|discriminate].
        intros _. right. split; [eauto|]. left. apply in_map_iff in Hx. destruct Hx as (t & Et & Ht).
        destruct (IH t Ht (wf_node l W t Ht)) as (_ & _ & _ & Q). destruct (Q Et) as [->| ->].
        * left. apply in_leaves_node. exists (VLeaf PInf). split; [exact Ht|left; reflexivity].
        * right. apply in_leaves_node. exists (VLeaf MInf). split; [exact Ht|left; reflexivity].
      + assert (F2 : Forall2 (fun t m => infinity_norm rnd t = Fin m) l ms).
        { clear - Ems. subst ns. revert ms Ems. induction l as [|t l IHl]; intros [|m ms] E; try discriminate; constructor; inversion E; auto. }
        assert (F3 : Forall2 (fun t m => largest (leaves t) m) l ms).
        { clear - F2 IH W. revert IH W. induction F2; intros IH W; constructor.
          - apply (IH x (or_introl eq_refl) (wf_node _ W x (or_introl eq_refl))), H.
          - apply IHF2; [intros t Ht; apply IH; right; exact Ht|]. intros q Hq. apply W. cbn [leaves flat_map]. apply in_or_app. right. exact Hq. }
        assert (NN : Forall (fun m => (0 <= m)%Qc) ms /\ Forall (fun m => rnd m = Some m) ms).
        { rewrite Ems in NV. clear - NV. induction ms as [|m ms IHm]; [split; constructor|]. inversion NV; subst.
          destruct (IHm H2) as (P1 & P2). destruct H1 as [H1|[H1|(q & E & Q1 & Q2)]]; try discriminate. inversion E; subst. split; constructor; auto. }
        destruct NN as (N0 & N1).
        destruct (rounded_sum rnd 1%Qc ms) as [r|] eqn:Er.
        * rewrite Ems. rewrite (tracked_max_fin rnd HR ms r N0 N1 Er).
          destruct (qmax_spec_gen ms 0%Qc) as (_ & B & _). fold (qmax ms) in B.
          split; [right; right; exists (qmax ms); split; [reflexivity|]; split; [exact B|apply qmax_repr; auto]|].
          split; [|split; discriminate]. intros m E. inversion E; subst m. split; [|split].
          -- intros x Hx. apply in_leaves_node in Hx. destruct Hx as (t & Ht & Hx).
             assert (G : exists m, infinity_norm rnd t = Fin m).
             { clear - F2 Ht. induction F2; [destruct Ht|]. destruct Ht as [<-|Ht]; eauto. }
             destruct G as (m & G). apply (IH t Ht (wf_node l W t Ht)) in G. destruct G as (G & _). apply G, Hx.
          -- apply largest_flat, F3.
          -- intros O. inversion O as [l0 ms' F3' E'|l0 t Ht O']; subst.
             ++ assert (ms = ms') as <-; [|congruence]. clear - F3 F3'. revert ms' F3'. induction F3; intros ms' F'; inversion F'; subst; [reflexivity|].
                f_equal; [eapply largest_unique; eauto|apply IHF3; assumption].
             ++ assert (G : exists m, infinity_norm rnd t = Fin m).
                { clear - F2 Ht. induction F2; [destruct Ht|]. destruct Ht as [<-|Ht]; eauto. }
                destruct G as (m & G). apply (IH t Ht (wf_node l W t Ht)) in G. destruct G as (_ & _ & G). exact (G O').
        * rewrite (tracked_max_nan rnd ns NV).
          2:{ right. rewrite Ems. unfold one. rewrite sum_from_fin; auto; [rewrite Er; reflexivity|apply Qclt_le_weak, Qclt_01]. }
          split; [left; reflexivity|]. split; [discriminate|]. split; [|discriminate].
          intros _. right. split; [eauto|]. right. exact (ov_here rnd l ms F3 Er).
  Qed.

  Lemma nan_in t : In NaN (leaves t) -> infinity_norm rnd t = NaN.
  Proof.
    induction t as [x|l IH] using vtree_ind'; intros H.
    - destruct H as [->|[]]. reflexivity.
    - apply in_leaves_node in H. destruct H as (t & Ht & H). cbn [infinity_norm]. apply tracked_max_nan_in.
      apply in_map_iff. exists t. split; [apply IH; assumption|exact Ht].
  Qed.

  Lemma normval_cases x : normval rnd x -> x = NaN \/ x = PInf \/ exists q, x = Fin q.
  Proof. intros [H|[H|(q & H & _)]]; eauto. Qed.

  (** C49.  infinity_norm() (and infinity_norm_real()) of any vector type, however nested, of machine numbers:
      - NaN if an entry is NaN;
      - otherwise the largest absolute value, if all entries are finite and no container's "1 + sum of the block norms"
        overflows. *)
  Theorem C49_infinity_norm (t : vtree) : wellformed (leaves t) ->
    (In NaN (leaves t) -> infinity_norm rnd t = NaN) /\
    (finite rnd (leaves t) -> ~ overflows rnd t -> exists m, infinity_norm rnd t = Fin m /\ largest (leaves t) m).
  Proof.
    intros W. split; [apply nan_in|]. intros Hf Ho. destruct (norm_cases t W) as (A & B & C & D).
    destruct (normval_cases _ A) as [E|[E|(m & E)]].
    - exfalso. destruct (C E) as [Hn|(_ & [[Hn|Hn]|Hn])]; [..|exact (Ho Hn)]; destruct (Hf _ Hn) as (q & Eq & _); discriminate.
    - exfalso. destruct (D E) as [->| ->]; destruct (Hf _ (or_introl eq_refl)) as (q & Eq & _); discriminate.
    - exists m. split; [exact E|]. apply (B m E).
  Qed.

  (** ... and these are the only cases: with an infinite entry, or when the tracker overflows, the result is NaN although
      no entry is (deviation) *)
  Theorem C49_spurious_nan_refuted (l : list vtree) : wellformed (leaves (VNode l)) ->
    In PInf (leaves (VNode l)) \/ In MInf (leaves (VNode l)) \/ overflows rnd (VNode l) ->
    infinity_norm rnd (VNode l) = NaN.
  Proof.
    intros W H. destruct (norm_cases (VNode l) W) as (A & B & C & D).
    destruct (normval_cases _ A) as [E|[E|(m & E)]]; [exact E|exfalso; destruct (D E); discriminate|exfalso].
    destruct (B m E) as (F & _ & G). destruct H as [H|[H|H]]; [..|exact (G H)]; destruct (F _ H) as (q & Eq & _); discriminate.
  Qed.
End Theorems.

(** ** One-norm, two-norm, matrices *)
Definition absq (x : num) : Qc := match x with Fin q => Qcabs q | _ => 0%Qc end.

Section Sums.
  Variable rnd : Qc -> option Qc.
  Hypothesis HR : rounding rnd.

  Lemma nabs_normval x : (forall q, x = Fin q -> rnd q = Some q) -> normval rnd (nabs x).
  Proof.
    intros H. destruct x as [| | |q]; cbn; [left|right; left|right; left|right; right]; auto.
    exists (Qcabs q). split; [reflexivity|]. split; [apply Qcabs_nonneg|apply abs_repr; auto].
  Qed.

  Lemma fin_normval q : (0 <= q)%Qc -> normval rnd (fin rnd q) /\ fin rnd q <> NaN.
  Proof.
    intros H. unfold fin. destruct (rnd q) as [r|] eqn:E.
    - split; [|discriminate]. right; right. exists r. split; [reflexivity|]. split; [exact (rnd_nonneg rnd HR q r H E)|exact (rnd_idem _ HR _ _ E)].
    - destruct (Qclt_le_dec q 0) as [L|L]; [exfalso; exact (Qclt_not_le _ _ L H)|]. split; [right; left; reflexivity|discriminate].
  Qed.

  Lemma sq_normval x : (forall q, x = Fin q -> rnd q = Some q) -> normval rnd (nmul rnd (nabs x) (nabs x)) /\ (nmul rnd (nabs x) (nabs x) = NaN <-> x = NaN).
  Proof.
    intros H. destruct x as [| | |q]; cbn.
    - split; [left; reflexivity|tauto].
    - split; [right; left; reflexivity|split; discriminate].
    - split; [right; left; reflexivity|split; discriminate].
    - destruct (fin_normval (Qcabs q * Qcabs q)%Qc) as (A & B).
      { rewrite <- (Qcmult_0_l (Qcabs q)). apply Qcmult_le_compat_r; apply Qcabs_nonneg. }
      split; [exact A|]. split; [intros E; exfalso; exact (B E)|discriminate].
  Qed.

  Lemma zero_normval : normval rnd zero.
  Proof. right; right. exists 0%Qc. split; [reflexivity|]. split; [apply Qcle_refl|apply HR]. Qed.

  (** a sum over all leaves, built container by container *)
  Lemma sum_norm_gen (N : vtree -> num) (f : num -> num)
    (HL : forall x, N (VLeaf x) = f x) (HN : forall l, N (VNode l) = sum_from rnd zero (map N l))
    (Hf : forall x, (forall q, x = Fin q -> rnd q = Some q) -> normval rnd (f x) /\ (f x = NaN <-> x = NaN)) t :
    wellformed rnd (leaves t) -> normval rnd (N t) /\ (N t = NaN <-> In NaN (leaves t)).
  Proof.
    induction t as [x|l IH] using vtree_ind'; intros W.
    - rewrite HL. destruct (Hf x) as (A & B); [intros q ->; apply W; left; reflexivity|]. split; [exact A|].
      rewrite B. cbn. intuition.
    - rewrite HN.
      assert (NV : Forall (normval rnd) (map N l)).
      { apply Forall_forall. intros y Hy. apply in_map_iff in Hy. destruct Hy as (t & <- & Ht). apply IH; [exact Ht|apply (wf_node rnd l W), Ht]. }
      split; [apply sum_from_normval; auto using zero_normval|]. split.
      + intros H. destruct (sum_from_nan_inv rnd HR _ _ zero_normval NV H) as [E|E]; [discriminate|].
        apply in_map_iff in E. destruct E as (t & Et & Ht). apply in_leaves_node. exists t. split; [exact Ht|].
        apply (IH t Ht (wf_node rnd l W t Ht)), Et.
      + intros H. apply in_leaves_node in H. destruct H as (t & Ht & H). apply sum_from_NaN_in. apply in_map_iff.
        exists t. split; [apply (IH t Ht (wf_node rnd l W t Ht)), H|exact Ht].
  Qed.

  (** C49.  one_norm() and two_norm2() are NaN exactly when some entry is *)
  Theorem C49_sum_norms_nan (t : vtree) : wellformed rnd (leaves t) ->
    (one_norm rnd t = NaN <-> In NaN (leaves t)) /\ (two_norm2 rnd t = NaN <-> In NaN (leaves t)).
  Proof.
    intros W. split.
    - apply (sum_norm_gen (one_norm rnd) nabs); auto. intros x Hx. split; [apply nabs_normval, Hx|]. destruct x; cbn; split; congruence.
    - apply (sum_norm_gen (two_norm2 rnd) (fun x => nmul rnd (nabs x) (nabs x))); auto. intros x Hx. apply sq_normval, Hx.
  Qed.
End Sums.

Section Exact.
  Variables (rnd : Qc -> option Qc) (big : Qc).
  Hypothesis HR : rounding rnd.
  Hypothesis HE : exact_up_to big rnd.

  Lemma qsum_app a b : qsum (a ++ b) = (qsum a + qsum b)%Qc.
  Proof. induction a as [|x a IH]; cbn [app qsum fold_right]; [rewrite Qcplus_0_l; reflexivity|]. fold (qsum (a ++ b)) (qsum a). rewrite IH. ring. Qed.
  Lemma qsum_nonneg l : Forall (fun m => (0 <= m)%Qc) l -> (0 <= qsum l)%Qc.
  Proof.
    induction 1; [apply Qcle_refl|]. cbn [qsum fold_right]. rewrite <- (Qcplus_0_l 0). apply Qcplus_le_compat; assumption.
  Qed.
  Lemma rounded_exact l : forall s, (0 <= s)%Qc -> Forall (fun m => (0 <= m)%Qc) l -> (s + qsum l <= big)%Qc -> rounded_sum rnd s l = Some (s + qsum l)%Qc.
  Proof.
    induction l as [|x l IH]; intros s Hs Hl Hb; cbn [rounded_sum qsum fold_right] in *; [f_equal; ring|]. fold (qsum l) in *.
    inversion Hl; subst.
    assert (N : (0 <= s + x)%Qc) by (rewrite <- (Qcplus_0_l 0); apply Qcplus_le_compat; assumption).
    rewrite HE.
    - replace (s + (x + qsum l))%Qc with (s + x + qsum l)%Qc in * by ring. apply IH; assumption.
    - rewrite Qcabs_pos by exact N. apply (Qcle_trans _ (s + x + qsum l)%Qc).
      + rewrite <- (Qcplus_0_r (s + x)) at 1. apply Qcplus_le_compat; [apply Qcle_refl|apply qsum_nonneg; assumption].
      + replace (s + x + qsum l)%Qc with (s + (x + qsum l))%Qc by ring. exact Hb.
  Qed.

  Lemma absq_nonneg l : Forall (fun m => (0 <= m)%Qc) (map absq l).
  Proof. apply Forall_forall. intros y Hy. apply in_map_iff in Hy. destruct Hy as ([| | |q] & <- & _); cbn; try apply Qcle_refl. apply Qcabs_nonneg. Qed.

  Lemma absq_le_sum x l : In x l -> (absq x <= qsum (map absq l))%Qc.
  Proof.
    induction l as [|a l IH]; [intros []|]. cbn [map qsum fold_right]. fold (qsum (map absq l)). intros [->|H].
    - rewrite <- (Qcplus_0_r (absq x)) at 1. apply Qcplus_le_compat; [apply Qcle_refl|apply qsum_nonneg, absq_nonneg].
    - apply (Qcle_trans _ (qsum (map absq l))); [apply IH, H|]. rewrite <- (Qcplus_0_l (qsum (map absq l))) at 1.
      apply Qcplus_le_compat; [destruct a; cbn; try apply Qcle_refl; apply Qcabs_nonneg|apply Qcle_refl].
  Qed.
  Lemma largest_le_sum l m : largest l m -> (m <= qsum (map absq l))%Qc.
  Proof.
    intros (_ & [->|(q & Hq & <-)]); [apply qsum_nonneg, absq_nonneg|]. exact (absq_le_sum (Fin q) l Hq).
  Qed.
  Lemma sub_sum t l : In t l -> (qsum (map absq (leaves t)) <= qsum (map absq (leaves (VNode l))))%Qc.
  Proof.
    induction l as [|a l IH]; [intros []|]. intros H. cbn [leaves flat_map]. rewrite map_app, qsum_app. destruct H as [->|H].
    - rewrite <- (Qcplus_0_r (qsum (map absq (leaves t)))) at 1. apply Qcplus_le_compat; [apply Qcle_refl|apply qsum_nonneg, absq_nonneg].
    - rewrite <- (Qcplus_0_l (qsum (map absq (leaves t)))). apply Qcplus_le_compat; [apply qsum_nonneg, absq_nonneg|apply IH, H].
  Qed.

  (** the tracker does not overflow when 1 plus the one-norm of the vector is representable *)
  Lemma no_overflow t : (1 + qsum (map absq (leaves t)) <= big)%Qc -> ~ overflows rnd t.
  Proof.
    induction t as [x|l IH] using vtree_ind'; intros H O; [inversion O|].
    inversion O as [l0 ms F E|l0 t Ht O']; subst.
    - assert (G : Forall (fun m => (0 <= m)%Qc) ms /\ (qsum ms <= qsum (map absq (leaves (VNode l))))%Qc).
      { clear - F. induction F; [split; [constructor|apply Qcle_refl]|]. destruct IHF as (G1 & G2). split.
        - constructor; [|exact G1]. destruct H as (_ & [->|(q & _ & <-)]); [apply Qcle_refl|apply Qcabs_nonneg].
        - cbn [leaves flat_map qsum fold_right]. rewrite map_app, qsum_app. apply Qcplus_le_compat; [apply largest_le_sum, H|exact G2]. }
      destruct G as (G1 & G2). rewrite (rounded_exact ms 1%Qc) in E; [discriminate|apply Qclt_le_weak, Qclt_01|exact G1|].
      apply (Qcle_trans _ (1 + qsum (map absq (leaves (VNode l))))%Qc); [apply Qcplus_le_compat; [apply Qcle_refl|exact G2]|exact H].
    - apply (IH t Ht); [|exact O']. apply (Qcle_trans _ (1 + qsum (map absq (leaves (VNode l))))%Qc); [|exact H].
      apply Qcplus_le_compat; [apply Qcle_refl|apply sub_sum, Ht].
  Qed.

  Lemma one_norm_exact t : finite rnd (leaves t) -> (qsum (map absq (leaves t)) <= big)%Qc -> one_norm rnd t = Fin (qsum (map absq (leaves t))).
  Proof.
    induction t as [x|l IH] using vtree_ind'; intros Hf Hb.
    - cbn [one_norm leaves map]. destruct (Hf x (or_introl eq_refl)) as (q & -> & _). cbn. f_equal. ring.
    - cbn [one_norm].
      assert (E : map (one_norm rnd) l = map Fin (map (fun t => qsum (map absq (leaves t))) l)).
      { rewrite map_map. apply map_ext_in. intros t Ht. apply IH; [exact Ht| |].
        - intros x Hx. apply Hf. apply in_leaves_node. eauto.
        - apply (Qcle_trans _ (qsum (map absq (leaves (VNode l))))); [apply sub_sum, Ht|exact Hb]. }
      assert (E2 : qsum (map (fun t => qsum (map absq (leaves t))) l) = qsum (map absq (leaves (VNode l)))).
      { clear. induction l as [|a l IH]; [reflexivity|]. cbn [map qsum fold_right leaves flat_map]. rewrite map_app, qsum_app. f_equal. exact IH. }
      assert (NN : Forall (fun m => (0 <= m)%Qc) (map (fun t => qsum (map absq (leaves t))) l)).
      { apply Forall_forall. intros y Hy. apply in_map_iff in Hy. destruct Hy as (t & <- & _). apply qsum_nonneg, absq_nonneg. }
      rewrite E. unfold zero. rewrite sum_from_fin; auto; [|apply Qcle_refl].
      rewrite rounded_exact; auto; [|apply Qcle_refl|]; rewrite E2; rewrite Qcplus_0_l; auto.
  Qed.

  (** C49, in the idealisation "exact up to [big], overflow beyond": if 1 plus the sum of the absolute values of all
      entries does not exceed [big], infinity_norm() is the largest absolute value and one_norm() the sum of the absolute
      values, whatever the block structure *)
  Theorem C49_exact_norms (t : vtree) : finite rnd (leaves t) -> (1 + qsum (map absq (leaves t)) <= big)%Qc ->
    (exists m, infinity_norm rnd t = Fin m /\ largest (leaves t) m) /\
    one_norm rnd t = Fin (qsum (map absq (leaves t))).
  Proof.
    intros Hf Hb. split.
    - apply C49_infinity_norm; auto; [|apply no_overflow, Hb]. intros q Hq. destruct (Hf _ Hq) as (p & E & Hp). inversion E; subst. exact Hp.
    - apply one_norm_exact; auto. apply (Qcle_trans _ (1 + qsum (map absq (leaves t)))%Qc); [|exact Hb].
      rewrite <- (Qcplus_0_l (qsum _)) at 1. apply Qcplus_le_compat; [apply Qclt_le_weak, Qclt_01|apply Qcle_refl].
  Qed.

  (** C49.  The two entries (big, big) have a finite infinity norm, but infinity_norm() returns NaN as soon as twice the
      largest number overflows (deviation) *)
  Theorem C49_two_large_entries_refuted : (1 <= big)%Qc -> rnd (big + big)%Qc = None -> rnd (1 + big)%Qc = Some big ->
    infinity_norm rnd (VNode [VLeaf (Fin big); VLeaf (Fin big)]) = NaN /\ largest [Fin big; Fin big] big.
  Proof.
    intros H1 H2 H3.
    assert (H0 : (0 <= big)%Qc) by (apply (Qcle_trans _ 1%Qc); [apply Qclt_le_weak, Qclt_01|exact H1]).
    assert (L : largest [Fin big] big).
    { split; [intros q [E|[]]; inversion E; subst; rewrite Qcabs_pos by exact H0; apply Qcle_refl|]. right. exists big. split; [left; reflexivity|apply Qcabs_pos, H0]. }
    split.
    - apply C49_spurious_nan_refuted; auto.
      + intros q [E|[E|[]]]; inversion E; subst; apply HE; rewrite Qcabs_pos by exact H0; apply Qcle_refl.
      + right; right. apply (ov_here rnd _ [big; big]); [constructor; [exact L|constructor; [exact L|constructor]]|].
        cbn [rounded_sum]. rewrite H3, H2. reflexivity.
    - split; [intros q [E|[E|[]]]; inversion E; subst; rewrite Qcabs_pos by exact H0; apply Qcle_refl|].
      right. exists big. split; [left; reflexivity|apply Qcabs_pos, H0].
  Qed.
End Exact.

(** ** Matrices *)
(** [row_sum_norm rnd t m]: all entries are finite and [m] is the nested row-sum norm: of a number its absolute value; of
    a matrix of blocks the largest machine sum of the norms of the blocks of one row (0 without rows), where neither those
    sums nor 1 plus their sum overflow *)
Inductive row_sum_norm (rnd : Qc -> option Qc) : mtree -> Qc -> Prop :=
| rs_leaf q : rnd q = Some q -> row_sum_norm rnd (MLeaf (Fin q)) (Qcabs q)
| rs_node rows vals sums m :
    Forall2 (Forall2 (row_sum_norm rnd)) rows vals ->
    Forall2 (fun v s => rounded_sum rnd 0%Qc v = Some s) vals sums ->
    (forall s, In s sums -> (s <= m)%Qc) -> (m = 0%Qc \/ In m sums) -> (0 <= m)%Qc ->
    rounded_sum rnd 1%Qc sums <> None ->
    row_sum_norm rnd (MNode rows) m.

Lemma qmax_unique ms m : (forall s, In s ms -> (s <= m)%Qc) -> (m = 0%Qc \/ In m ms) -> (0 <= m)%Qc -> qmax ms = m.
Proof.
  intros A B C. destruct (qmax_spec_gen ms 0%Qc) as (A' & B' & C'). fold (qmax ms) in A', B', C'. apply Qcle_antisym.
  - destruct C' as [->|H]; [exact C|apply A, H].
  - destruct B as [->|H]; [exact B'|apply A', H].
Qed.

Lemma mleaves_node x rows : In x (mleaves (MNode rows)) <-> exists r t, In r rows /\ In t r /\ In x (mleaves t).
Proof.
  cbn [mleaves]. rewrite in_flat_map. split.
  - intros (r & Hr & H). apply in_flat_map in H. destruct H as (t & Ht & H). eauto.
  - intros (r & t & Hr & Ht & H). exists r. split; [exact Hr|]. apply in_flat_map. eauto.
Qed.

Section Matrices.
  Variable rnd : Qc -> option Qc.
  Hypothesis HR : rounding rnd.

  Lemma tracked_row_max_eq rows : tracked_row_max rnd rows = tracked_max rnd (map (sum_from rnd zero) rows).
  Proof.
    assert (E : forall s, fold_left (fun s row => (nmax (sum_from rnd zero row) (fst s), nadd rnd (snd s) (sum_from rnd zero row))) rows s =
                fold_left (fun s a => (nmax a (fst s), nadd rnd (snd s) a)) (map (sum_from rnd zero) rows) s).
    { induction rows as [|r rows IH]; intros s; [reflexivity|]. cbn [map fold_left]. apply IH. }
    unfold tracked_row_max, tracked_max. cbv zeta.
    rewrite E. reflexivity.
  Qed.

  Lemma row_sum_norm_ok t : forall m, row_sum_norm rnd t m -> minfinity_norm rnd t = Fin m /\ (0 <= m)%Qc /\ rnd m = Some m.
  Proof.
    induction t as [x|rows IH] using mtree_ind'; intros m H.
    - inversion H; subst. cbn. split; [reflexivity|]. split; [apply Qcabs_nonneg|apply abs_repr; assumption].
    - inversion H as [|rows0 vals sums m0 F1 F2 A B C D]; subst. clear H.
      assert (V : map (map (minfinity_norm rnd)) rows = map (map Fin) vals /\ Forall (Forall (fun v => (0 <= v)%Qc /\ rnd v = Some v)) vals).
      { clear - F1 IH. revert IH. induction F1 as [|r v rows vals Hrv F1 IHF]; intros IH; [split; constructor|].
        destruct IHF as (G1 & G2); [intros r' t Hr Ht; apply (IH r' t); [right; exact Hr|exact Ht]|].
        assert (R : map (minfinity_norm rnd) r = map Fin v /\ Forall (fun v => (0 <= v)%Qc /\ rnd v = Some v) v).
        { assert (IH' : forall t, In t r -> forall m, row_sum_norm rnd t m -> minfinity_norm rnd t = Fin m /\ (0 <= m)%Qc /\ rnd m = Some m) by (intros t Ht; apply (IH r t); [left; reflexivity|exact Ht]).
          clear - Hrv IH'. revert IH'. induction Hrv as [|t q r v Htq Hrv IHr]; intros IH'; [split; constructor|].
          destruct IHr as (P1 & P2); [intros t' Ht'; apply IH'; right; exact Ht'|].
          destruct (IH' t (or_introl eq_refl) q Htq) as (Q1 & Q2 & Q3). cbn [map]. rewrite Q1, P1. split; [reflexivity|]. constructor; auto. }
        destruct R as (R1 & R2). cbn [map]. rewrite R1, G1. split; [reflexivity|]. constructor; auto. }
      destruct V as (V1 & V2). cbn [minfinity_norm]. rewrite V1, tracked_row_max_eq.
      assert (S : map (sum_from rnd zero) (map (map Fin) vals) = map Fin sums /\ Forall (fun s => (0 <= s)%Qc) sums /\ Forall (fun s => rnd s = Some s) sums).
      { clear - F2 V2 HR. induction F2 as [|v s vals sums Hvs F2 IHF]; [split; [reflexivity|split; constructor]|].
        inversion V2; subst. destruct (IHF H2) as (G1 & G2 & G3). cbn [map]. rewrite G1.
        assert (N : Forall (fun m => (0 <= m)%Qc) v) by (eapply Forall_impl; [|exact H1]; intros a Ha; apply Ha).
        assert (E : sum_from rnd zero (map Fin v) = Fin s) by (unfold zero; rewrite sum_from_fin; auto; [rewrite Hvs; reflexivity|apply Qcle_refl]).
        rewrite E. split; [reflexivity|].
        assert (W : normval rnd (Fin s)).
        { rewrite <- E. apply sum_from_normval; auto; [apply zero_normval; auto|]. apply Forall_forall. intros y Hy. apply in_map_iff in Hy.
          destruct Hy as (q & <- & Hq). rewrite Forall_forall in H1. destruct (H1 q Hq). right; right. exists q. auto. }
        destruct W as [W|[W|(q & W & W1 & W2)]]; try discriminate. inversion W; subst. split; constructor; auto. }
      destruct S as (S1 & S2 & S3). rewrite S1.
      destruct (rounded_sum rnd 1%Qc sums) as [r|] eqn:Er; [|congruence].
      rewrite (tracked_max_fin rnd HR sums r S2 S3 Er). rewrite (qmax_unique sums m A B C).
      split; [reflexivity|]. split; [exact C|]. rewrite <- (qmax_unique sums m A B C). apply qmax_repr; auto.
  Qed.

  (** C49.  infinity_norm() of a BCRSMatrix or dense Matrix, however its blocks are nested: NaN if a stored entry is NaN;
      the nested row-sum norm if everything stays finite *)
  Theorem C49_matrix_infinity_norm (t : mtree) :
    (In NaN (mleaves t) -> minfinity_norm rnd t = NaN) /\
    (forall m, row_sum_norm rnd t m -> minfinity_norm rnd t = Fin m).
  Proof.
    split; [|intros m H; apply row_sum_norm_ok, H].
    induction t as [x|rows IH] using mtree_ind'; intros H.
    - destruct H as [->|[]]. reflexivity.
    - apply mleaves_node in H. destruct H as (r & t & Hr & Ht & H). cbn [minfinity_norm]. rewrite tracked_row_max_eq.
      apply tracked_max_nan_in. apply in_map_iff. exists (map (minfinity_norm rnd) r). split; [|apply in_map, Hr].
      apply sum_from_NaN_in. apply in_map_iff. exists t. split; [apply (IH r t Hr Ht H)|exact Ht].
  Qed.

  Lemma nmax_normval a b : normval rnd a -> normval rnd b -> a <> NaN -> normval rnd (nmax a b) /\ nmax a b <> NaN.
  Proof.
    intros [->|[->|(x & -> & Hx & Rx)]] [->|[->|(y & -> & Hy & Ry)]] N; try congruence; unfold nmax; cbn [nlt];
      try (split; [right; left; reflexivity|discriminate]); try (split; [right; right; eauto|discriminate]).
    destruct (Qclt_le_dec x y); split; try discriminate; right; right; eauto.
  Qed.

  (** C49.  MultiTypeBlockMatrix::infinity_norm() does not track NaN: a NaN in any row but the last is silently dropped
      (deviation), one in the last row is returned *)
  Theorem C49_multitype_drops_nan_refuted (rows rows' : list (list num)) :
    (forall r, In r rows' -> Forall (normval rnd) r /\ ~ In NaN r) -> rows' <> nil ->
    (forall r, In r rows -> Forall (normval rnd) r) ->
    mt_infinity_norm rnd (rows ++ rows') <> NaN /\
    forall r, Forall (normval rnd) r -> In NaN r -> mt_infinity_norm rnd (rows ++ [r]) = NaN.
  Proof.
    intros H Hne Hr.
    assert (NV : forall rows s, (forall r, In r rows -> Forall (normval rnd) r) -> normval rnd s ->
      normval rnd (fold_left (fun norm row => nmax (sum_from rnd zero row) norm) rows s)).
    { clear - HR. induction rows as [|r rows IH]; intros s H Hs; [exact Hs|]. cbn [fold_left]. apply IH; [intros r' Hr'; apply H; right; exact Hr'|].
      assert (W : normval rnd (sum_from rnd zero r)) by (apply sum_from_normval; auto; [apply zero_normval; auto|apply H; left; reflexivity]).
      destruct W as [->|W]; [left; destruct s; reflexivity|]. apply nmax_normval; auto; [right; exact W|]. destruct W as [->|(q & -> & _)]; discriminate. }
    unfold mt_infinity_norm. split.
    - rewrite fold_left_app.
      assert (G : forall rows' s, normval rnd s -> (forall r, In r rows' -> Forall (normval rnd) r /\ ~ In NaN r) -> (rows' <> nil \/ s <> NaN) ->
        fold_left (fun norm row => nmax (sum_from rnd zero row) norm) rows' s <> NaN).
      { clear - HR. induction rows' as [|r rows' IH]; intros s Hs H Hn; [destruct Hn; [congruence|assumption]|]. cbn [fold_left].
        destruct (H r (or_introl eq_refl)) as (F & Fn).
        assert (W : normval rnd (sum_from rnd zero r)) by (apply sum_from_normval; auto; apply zero_normval; auto).
        assert (N : sum_from rnd zero r <> NaN) by (intros E; destruct (sum_from_nan_inv rnd HR r zero (zero_normval rnd HR) F E); [discriminate|contradiction]).
        destruct (nmax_normval _ s W Hs N). apply IH; auto. intros r' Hr'. apply H. right; exact Hr'. }
      apply G; auto. apply NV; auto. apply zero_normval; auto.
    - intros r Hr' Hn. rewrite fold_left_app. cbn [fold_left]. rewrite (sum_from_NaN_in rnd r zero Hn). reflexivity.
  Qed.

  (** C49.  frobenius_norm2() of any matrix type is NaN exactly when a stored entry is *)
  Theorem C49_frobenius_nan (t : mtree) : wellformed rnd (mleaves t) -> (frobenius2 rnd t = NaN <-> In NaN (mleaves t)).
  Proof.
    intros W. assert (G : normval rnd (frobenius2 rnd t) /\ (frobenius2 rnd t = NaN <-> In NaN (mleaves t))); [|apply G].
    revert W. induction t as [x|rows IH] using mtree_ind'; intros W.
    - cbn [frobenius2 mleaves]. destruct (sq_normval rnd HR x) as (A & B); [intros q ->; apply W; left; reflexivity|].
      split; [exact A|]. rewrite B. cbn. intuition.
    - cbn [frobenius2].
      assert (E : forall rs s, fold_left (fun s row => sum_from rnd s row) rs s = sum_from rnd s (concat rs)).
      { clear. induction rs as [|r rs IH]; intros s; [reflexivity|]. cbn [fold_left concat]. rewrite IH. unfold sum_from. rewrite fold_left_app. reflexivity. }
      rewrite E.
      assert (Wt : forall r t, In r rows -> In t r -> wellformed rnd (mleaves t)) by (intros r t Hr Ht q Hq; apply W, mleaves_node; eauto 6).
      assert (NV : Forall (normval rnd) (concat (map (map (frobenius2 rnd)) rows))).
      { apply Forall_forall. intros y Hy. apply in_concat in Hy. destruct Hy as (r' & Hr' & Hy). apply in_map_iff in Hr'. destruct Hr' as (r & <- & Hr).
        apply in_map_iff in Hy. destruct Hy as (t & <- & Ht). apply (IH r t Hr Ht (Wt r t Hr Ht)). }
      split; [apply sum_from_normval; auto using zero_normval|]. split.
      + intros H. destruct (sum_from_nan_inv rnd HR _ _ (zero_normval rnd HR) NV H) as [F|F]; [discriminate|].
        apply in_concat in F. destruct F as (r' & Hr' & F). apply in_map_iff in Hr'. destruct Hr' as (r & <- & Hr).
        apply in_map_iff in F. destruct F as (t & Et & Ht). apply mleaves_node. exists r, t. split; [exact Hr|]. split; [exact Ht|].
        apply (IH r t Hr Ht (Wt r t Hr Ht)), Et.
      + intros H. apply mleaves_node in H. destruct H as (r & t & Hr & Ht & H). apply sum_from_NaN_in. apply in_concat.
        exists (map (frobenius2 rnd) r). split; [apply in_map, Hr|]. apply in_map_iff. exists t. split; [apply (IH r t Hr Ht (Wt r t Hr Ht)), H|exact Ht].
  Qed.
End Matrices.

(** ** Non-vacuity: a number type that is exact up to 100 and overflows beyond *)
Definition ex_rnd (q : Qc) : option Qc := if Qclt_le_dec (Q2Qc 100) (Qcabs q) then None else Some q.
Lemma ex_rounding : rounding ex_rnd.
Proof.
  assert (I : forall a b, ex_rnd a = Some b -> a = b) by (intros a b; unfold ex_rnd; destruct (Qclt_le_dec _ _); congruence).
  split; try reflexivity.
  - intros a b a' b' H Ha Hb. rewrite <- (I _ _ Ha), <- (I _ _ Hb). exact H.
  - intros a b H. assert (E := I _ _ H). subst b. exact H.
  - intros a. unfold ex_rnd. rewrite Qcabs_opp. destruct (Qclt_le_dec _ _); congruence.
Qed.
Lemma ex_exact : exact_up_to (Q2Qc 100) ex_rnd.
Proof. intros q H. unfold ex_rnd. destruct (Qclt_le_dec (Q2Qc 100) (Qcabs q)) as [L|L]; [exfalso; exact (Qclt_not_le _ _ L H)|reflexivity]. Qed.
Example C49_example_vector :
  infinity_norm ex_rnd (VNode [VNode [VLeaf (Fin (Q2Qc 3)); VLeaf (Fin (Q2Qc (-7)))]; VNode [VLeaf (Fin (Q2Qc 2))]; VNode nil]) = Fin (Q2Qc 7) /\
  infinity_norm ex_rnd (VNode [VNode [VLeaf (Fin (Q2Qc 3)); VLeaf NaN]; VNode [VLeaf (Fin (Q2Qc 2))]]) = NaN /\
  infinity_norm ex_rnd (VNode [VLeaf (Fin (Q2Qc 60)); VLeaf (Fin (Q2Qc 60))]) = NaN /\
  infinity_norm ex_rnd (VNode [VLeaf PInf]) = NaN.
Proof. vm_compute. repeat split. Qed.
Example C49_example_matrix :
  minfinity_norm ex_rnd (MNode [[MLeaf (Fin (Q2Qc 3)); MLeaf (Fin (Q2Qc (-7)))]; (MNode ([MLeaf (Fin (Q2Qc 2)); MLeaf (Fin (Q2Qc 9))] :: nil) :: nil); nil]) = Fin (Q2Qc 11) /\
  mt_infinity_norm ex_rnd [[Fin (Q2Qc 3); NaN]; (Fin (Q2Qc 2) :: nil)] = Fin (Q2Qc 2) /\ mt_infinity_norm ex_rnd [(Fin (Q2Qc 2) :: nil); [Fin (Q2Qc 3); NaN]] = NaN.
Proof. vm_compute. repeat split. Qed.
Print Assumptions C49_infinity_norm.
Print Assumptions C49_spurious_nan_refuted.
Print Assumptions C49_sum_norms_nan.
Print Assumptions C49_exact_norms.
Print Assumptions C49_two_large_entries_refuted.
Print Assumptions C49_matrix_infinity_norm.
Print Assumptions C49_multitype_drops_nan_refuted.
Print Assumptions C49_frobenius_nan.
