(** * BlockVector: window and storage stay in step (dune/istl/bvector.hh), C12

    A BlockVector is a [std::vector<B>] plus the pointer/size pair of its base class that all element access goes
    through.  Memory is a list of buffers ([None] = freed).  Any allocation may fail (flag of the command) and
    then throws; failing element copies are not modelled. *)
From Coq Require Import List Arith Bool Lia.
From Verif Require Import Sums Outcome BcrsAux.
Import ListNotations.

Section BVector.
  Context {V : Type}.
  Variable zv : V.   (* a value-initialised block *)

  (** ** Model *)
  (** storage_ (std::vector: buffer, size, capacity) and base class members p, n (bvector.hh:555-561).
      An empty std::vector is given its own empty buffer instead of a null pointer. *)
  Record bv := mkbv { s_buf : nat; s_size : nat; s_cap : nat; b_p : nat; b_n : nat }.
  Definition mem := list (option (list V)).
  Definition world := (mem * list (option bv))%type.

  Definition vresize (n : nat) (l : list V) : list V := firstn n l ++ repeat zv (n - length l).

  (** syncBaseArray (bvector.hh:555-559) *)
  Definition sync (o : bv) : bv := mkbv (s_buf o) (s_size o) (s_cap o) (s_buf o) (s_size o).

  (** std::vector operations on storage_; [None] in the third component = std::bad_alloc, storage unchanged
      (strong guarantee of resize/reserve; copy assignment allocates before it changes anything) *)
  Definition replace_buffer (h : mem) (o : bv) (l : list V) (cap : nat) : mem * bv :=
    (upd h (s_buf o) None ++ [Some l], mkbv (length h) (length l) cap (b_p o) (b_n o)).
  Definition v_resize (h : mem) (o : bv) (n : nat) (fail : bool) (newcap : nat) : res (mem * bv) unit :=
    match nth_error h (s_buf o) with
    | Some (Some l) =>
        if n <=? s_cap o then ROk (upd h (s_buf o) (Some (vresize n l)), mkbv (s_buf o) n (s_cap o) (b_p o) (b_n o)) tt
        else if fail then RThrow (h, o) EAlloc
        else ROk (replace_buffer h o (vresize n l) (Nat.max n newcap)) tt
    | _ => RUB
    end.
  (** storage_.reserve(capacity), called in bvector.hh:469-474 *)
  Definition v_reserve (h : mem) (o : bv) (c : nat) (fail : bool) (newcap : nat) : res (mem * bv) unit :=
    match nth_error h (s_buf o) with
    | Some (Some l) =>
        if c <=? s_cap o then ROk (h, o) tt
        else if fail then RThrow (h, o) EAlloc
        else ROk (replace_buffer h o l (Nat.max c newcap)) tt
    | _ => RUB
    end.
  (** storage_ = a.storage_, called in bvector.hh:521-528 *)
  Definition v_assign (h : mem) (o a : bv) (fail : bool) (newcap : nat) : res (mem * bv) unit :=
    match nth_error h (s_buf o), nth_error h (s_buf a) with
    | Some (Some _), Some (Some l) =>
        if length l <=? s_cap o then ROk (upd h (s_buf o) (Some l), mkbv (s_buf o) (length l) (s_cap o) (b_p o) (b_n o)) tt
        else if fail then RThrow (h, o) EAlloc
        else ROk (replace_buffer h o l (Nat.max (length l) newcap)) tt
    | _, _ => RUB
    end.
  (** default constructed object: empty storage, synced (bvector.hh:419-422) *)
  Definition bv_empty (h : mem) : mem * bv := (h ++ [Some nil], mkbv (length h) 0 0 (length h) 0).

  (** the member functions, lines as given *)
  Inductive cmd :=
  | CNew (n : nat)                (* BlockVector(n), bvector.hh:425-428 *)
  | CInit (l : list V)            (* initializer list, bvector.hh:431-434 *)
  | CNewCap (n c : nat)           (* BlockVector(n,capacity), bvector.hh:448-457 *)
  | CCopy (a : nat)               (* copy constructor, bvector.hh:506-511 *)
  | CMoveNew (a : nat)            (* move constructor, bvector.hh:514-518 *)
  | CResize (o n : nat)           (* bvector.hh:498-503 *)
  | CReserve (o c : nat)          (* bvector.hh:469-474 *)
  | CAssign (o a : nat)           (* bvector.hh:521-528 *)
  | CMoveAssign (o a : nat)       (* bvector.hh:531-536 *)
  | CSwap (o a : nat)             (* bvector.hh:539-548 *)
  | CFill (o : nat) (v : V)       (* assignment from a scalar, bvector.hh:551-556, 112-117 *)
  | CWrite (o i : nat) (v : V)    (* element access through the base class, basearray.hh *)
  | CDestroy (o : nat).

  (** (helpers of the model: the objects alive) *)
  Definition getobj (w : world) (o : nat) : option bv :=
    match nth_error (snd w) o with Some (Some b) => Some b | _ => None end.
  Definition setobj (w : world) (h : mem) (o : nat) (b : bv) : world := (h, upd (snd w) o (Some b)).
  Definition newobj (w : world) (h : mem) (b : bv) : world := (h, snd w ++ [Some b]).

  (** storage_.swap(other.storage_); both synced by the scope guard *)
  Definition do_swap (w : world) (o a : nat) (x y : bv) : world :=
    let x' := sync (mkbv (s_buf y) (s_size y) (s_cap y) (b_p x) (b_n x)) in
    let y' := sync (mkbv (s_buf x) (s_size x) (s_cap x) (b_p y) (b_n y)) in
    if o =? a then w else (fst w, upd (upd (snd w) o (Some x')) a (Some y')).

  (** a command together with the choices of the allocator: does the allocation fail, how much is reserved *)
  Definition step (w : world) (c : cmd * (bool * nat)) : res world unit :=
    let '(c, (fail, nc)) := c in
    let (h, os) := w in
    let guard (o : nat) (r : res (mem * bv) unit) : res world unit :=   (* the scope guard syncs on every exit *)
      match r with
      | ROk (h', b) _ => ROk (setobj w h' o (sync b)) tt
      | RThrow (h', b) e => RThrow (setobj w h' o (sync b)) e
      | RUB => RUB
      end in
    match c with
    | CNew n => if fail && (0 <? n) then RThrow w EAlloc else
                ROk (newobj w (h ++ [Some (repeat zv n)]) (sync (mkbv (length h) n (Nat.max n nc) 0 0))) tt
    | CInit l => if fail && (0 <? length l) then RThrow w EAlloc else
                ROk (newobj w (h ++ [Some l]) (sync (mkbv (length h) (length l) (Nat.max (length l) nc) 0 0))) tt
    | CNewCap n k =>
        let (h0, b0) := bv_empty h in
        let r1 := if n <? k then v_reserve h0 b0 k fail nc else ROk (h0, b0) tt in
        match r1 with
        | ROk (h1, b1) _ =>
            match v_resize h1 b1 n fail nc with
            | ROk (h2, b2) _ => ROk (newobj w h2 (sync b2)) tt
            | RThrow (h2, b2) e => RThrow (upd h2 (s_buf b2) None, os) e  (* the storage is destroyed *)
            | RUB => RUB
            end
        | RThrow (h1, b1) e => RThrow (upd h1 (s_buf b1) None, os) e
        | RUB => RUB
        end
    | CCopy a =>
        match getobj w a with
        | None => RUB
        | Some y => let (h0, b0) := bv_empty h in
            match v_assign h0 b0 y fail nc with
            | ROk (h1, b1) _ => ROk (newobj w h1 (sync b1)) tt
            | RThrow (h1, b1) e => RThrow (upd h1 (s_buf b1) None, os) e
            | RUB => RUB
            end
        end
    | CMoveNew a =>
        match getobj w a with
        | None => RUB
        | Some y => let (h0, b0) := bv_empty h in
            let w' := newobj w h0 b0 in
            ROk (do_swap w' (length os) a b0 y) tt
        end
    | CResize o n => match getobj w o with None => RUB | Some x => guard o (v_resize h x n fail nc) end
    | CReserve o k => match getobj w o with None => RUB | Some x => guard o (v_reserve h x k fail nc) end
    | CAssign o a => match getobj w o, getobj w a with
                     | Some x, Some y => guard o (v_assign h x y fail nc)
                     | _, _ => RUB end
    | CMoveAssign o a | CSwap o a =>
        match getobj w o, getobj w a with
        | Some x, Some y => ROk (do_swap w o a x y) tt
        | _, _ => RUB end
    | CFill o v =>
        match getobj w o with
        | None => RUB
        | Some x => match nth_error h (b_p x) with
                    | Some (Some l) => if b_n x <=? length l then ROk (upd h (b_p x) (Some (repeat v (b_n x) ++ skipn (b_n x) l)), os) tt else RUB
                    | _ => RUB end
        end
    | CWrite o i v =>
        match getobj w o with
        | None => RUB
        | Some x => match nth_error h (b_p x) with
                    | Some (Some l) => if (i <? b_n x) && (i <? length l) then ROk (upd h (b_p x) (Some (upd l i v)), os) tt else RUB
                    | _ => RUB end
        end
    | CDestroy o => match getobj w o with None => RUB | Some x => ROk (upd h (s_buf x) None, upd os o None) tt end
    end.

  (** what a user sees of object [o]: size() and the elements, read through the base class *)
  Definition observe (w : world) (o : nat) : option (list V) :=
    match getobj w o with
    | None => None
    | Some b => match nth_error (fst w) (b_p b) with
                | Some (Some l) => if b_n b <=? length l then Some (firstn (b_n b) l) else None
                | _ => None
                end
    end.

  (** ** Specification: every object is just a list of values *)
  Definition astate := list (option (list V)).
  Definition aget (a : astate) (o : nat) : option (list V) := match nth_error a o with Some x => x | None => None end.
  (** keep the first blocks, new blocks are value-initialised *)
  Definition resized (n : nat) (l : list V) (l' : list V) : Prop :=
    length l' = n /\ forall i, i < n -> nth_error l' i = match nth_error l i with Some x => Some x | None => Some zv end.
  Inductive effect (a : astate) : cmd -> astate -> Prop :=
  | e_new n : effect a (CNew n) (a ++ [Some (repeat zv n)])
  | e_init l : effect a (CInit l) (a ++ [Some l])
  | e_newcap n k : effect a (CNewCap n k) (a ++ [Some (repeat zv n)])
  | e_copy x l : aget a x = Some l -> effect a (CCopy x) (a ++ [Some l])
  | e_movenew x l : aget a x = Some l -> effect a (CMoveNew x) (upd a x (Some nil) ++ [Some l])
  | e_resize o n l l' : aget a o = Some l -> resized n l l' -> effect a (CResize o n) (upd a o (Some l'))
  | e_reserve o k l : aget a o = Some l -> effect a (CReserve o k) a
  | e_assign o x l k : aget a o = Some k -> aget a x = Some l -> effect a (CAssign o x) (upd a o (Some l))
  | e_moveassign o x l k : aget a o = Some k -> aget a x = Some l -> effect a (CMoveAssign o x) (upd (upd a o (Some l)) x (Some k))
  | e_swap o x l k : aget a o = Some k -> aget a x = Some l -> effect a (CSwap o x) (upd (upd a o (Some l)) x (Some k))
  | e_fill o v l : aget a o = Some l -> effect a (CFill o v) (upd a o (Some (repeat v (length l))))
  | e_write o i v l : aget a o = Some l -> i < length l -> effect a (CWrite o i v) (upd a o (Some (upd l i v)))
  | e_destroy o l : aget a o = Some l -> effect a (CDestroy o) (upd a o None).

  (** a history of the program together with the lists the objects should hold *)
  Inductive history : world -> astate -> Prop :=
  | h_start : history (nil, nil) nil
  | h_ok w a c w' a' : history w a -> effect a (fst c) a' -> step w c = ROk w' tt -> history w' a'
  | h_throw w a c w' a' e : history w a -> effect a (fst c) a' -> step w c = RThrow w' e -> history w' a.

  (** ** Proof *)
  Lemma nth_error_ext {A} (l1 l2 : list A) : (forall i, nth_error l1 i = nth_error l2 i) -> l1 = l2.
  Proof.
    revert l2. induction l1 as [|x t IH]; intros [|y u] H; auto; try (specialize (H 0); discriminate).
    pose proof (H 0) as H0. simpl in H0. inversion H0; subst. f_equal. apply IH. intros i. apply (H (S i)).
  Qed.
  Definition good (w : world) (a : astate) : Prop :=
    length (snd w) = length a /\
    (forall o, getobj w o = None <-> aget a o = None) /\
    (forall o b, getobj w o = Some b -> exists l, aget a o = Some l /\ nth_error (fst w) (s_buf b) = Some (Some l) /\
        s_size b = length l /\ s_size b <= s_cap b /\ b_p b = s_buf b /\ b_n b = s_size b) /\
    (forall o o' b b', getobj w o = Some b -> getobj w o' = Some b' -> s_buf b = s_buf b' -> o = o').

  Lemma vresize_spec n l : resized n l (vresize n l).
  Proof.
    unfold resized, vresize. split; [rewrite app_length, firstn_length, repeat_length; lia|]. intros i Hi.
    destruct (nth_error l i) as [x|] eqn:E.
    - pose proof (nth_error_lt _ _ _ E). rewrite nth_error_app1 by (rewrite firstn_length; lia).
      rewrite nth_error_firstn; auto.
    - apply nth_error_None in E. rewrite nth_error_app2 by (rewrite firstn_length; lia).
      rewrite firstn_length. rewrite nth_error_repeat; auto. lia.
  Qed.
  Lemma resized_unique n l l1 l2 : resized n l l1 -> resized n l l2 -> l1 = l2.
  Proof.
    intros [A B] [C D]. apply nth_error_ext. intros i. destruct (Nat.lt_ge_cases i n).
    - rewrite B, D; auto.
    - rewrite (proj2 (nth_error_None l1 i)), (proj2 (nth_error_None l2 i)); auto; lia.
  Qed.

  Lemma getobj_upd h os h' o b o' : o < length os ->
    getobj (h', upd os o b) o' = if o =? o' then b else getobj (h, os) o'.
  Proof.
    intros H. unfold getobj. cbn [snd]. rewrite nth_error_upd. destruct (Nat.eqb_spec o o') as [->|]; auto.
    apply Nat.ltb_lt in H. rewrite H. destruct b; auto.
  Qed.
  Lemma getobj_new h os h' b o' : getobj (h', os ++ [b]) o' = if o' =? length os then b else getobj (h, os) o'.
  Proof.
    unfold getobj. cbn [snd]. destruct (Nat.eqb_spec o' (length os)) as [->|Hn].
    - rewrite nth_error_app2, Nat.sub_diag by lia. simpl. destruct b; auto.
    - destruct (Nat.lt_ge_cases o' (length os)).
      + rewrite nth_error_app1; auto.
      + rewrite (proj2 (nth_error_None os o')) by lia. rewrite nth_error_app2 by lia.
        destruct (o' - length os) as [|k] eqn:E; [lia|]. simpl. destruct k; auto.
  Qed.
  Lemma aget_upd (a : astate) o l o' : o < length a -> aget (upd a o l) o' = if o =? o' then l else aget a o'.
  Proof.
    intros H. unfold aget. rewrite nth_error_upd. destruct (Nat.eqb_spec o o') as [->|]; auto.
    apply Nat.ltb_lt in H. now rewrite H.
  Qed.
  Lemma aget_new (a : astate) l o' : aget (a ++ [l]) o' = if o' =? length a then l else aget a o'.
  Proof.
    unfold aget. destruct (Nat.eqb_spec o' (length a)) as [->|Hn].
    - rewrite nth_error_app2, Nat.sub_diag by lia. reflexivity.
    - destruct (Nat.lt_ge_cases o' (length a)).
      + rewrite nth_error_app1; auto.
      + rewrite (proj2 (nth_error_None a o')) by lia. rewrite nth_error_app2 by lia.
        destruct (o' - length a) as [|k] eqn:E; [lia|]. simpl. destruct k; auto.
  Qed.
  Lemma getobj_lt (w : world) o b : getobj w o = Some b -> o < length (snd w).
  Proof. unfold getobj. intros H. destruct (nth_error (snd w) o) eqn:E; [|discriminate]. eapply nth_error_lt; eauto. Qed.
  Lemma aget_lt (a : astate) o l : aget a o = Some l -> o < length a.
  Proof. unfold aget. intros H. destruct (nth_error a o) eqn:E; [|discriminate]. eapply nth_error_lt; eauto. Qed.

  Definition okbuf (h : mem) (b : bv) (l : list V) : Prop :=
    nth_error h (s_buf b) = Some (Some l) /\ s_size b = length l /\ s_size b <= s_cap b /\ b_p b = s_buf b /\ b_n b = s_size b.

  Lemma good_set h os a o x h' b l : good (h, os) a -> getobj (h, os) o = Some x -> okbuf h' b l ->
    (s_buf b = s_buf x \/ length h <= s_buf b) ->
    (forall k, k < length h -> k <> s_buf x -> nth_error h' k = nth_error h k) ->
    good (h', upd os o (Some b)) (upd a o (Some l)).
  Proof.
    intros (G1 & G2 & G3 & G4) Hx HB Hfresh Hh. pose proof (getobj_lt _ _ _ Hx) as Ho. cbn [snd] in *.
    assert (HBl : forall o' y, getobj (h, os) o' = Some y -> s_buf y < length h).
    { intros o' y Hy. destruct (G3 o' y Hy) as (ly & _ & E & _). eapply nth_error_lt; eauto. }
    split; [cbn [snd]; now rewrite !upd_length|]. split; [|split].
    - intros o'. rewrite (getobj_upd h os) by auto. rewrite aget_upd by lia. destruct (o =? o'); [split; discriminate|]. apply G2.
    - intros o' y. rewrite (getobj_upd h os) by auto. rewrite aget_upd by lia. cbn [fst]. destruct (Nat.eqb_spec o o') as [->|Hn].
      + intros E. inversion E; subst. exists l. split; auto.
      + intros Hy. destruct (G3 o' y Hy) as (ly & A & B & C). exists ly. split; auto. rewrite Hh; auto.
        * eapply HBl; eauto.
        * intros Eb. apply Hn. apply (G4 o o' x y Hx Hy). auto.
    - intros o1 o2 b1 b2. rewrite !(getobj_upd h os) by auto.
      destruct (Nat.eqb_spec o o1) as [<-|H1], (Nat.eqb_spec o o2) as [<-|H2]; auto; intros E1 E2 Eb.
      + exfalso. inversion E1; subst b1. pose proof (HBl _ _ E2). destruct Hfresh as [Hf|Hf]; [|lia].
        apply H2. apply (G4 o o2 x b2 Hx E2). congruence.
      + exfalso. inversion E2; subst b2. pose proof (HBl _ _ E1). destruct Hfresh as [Hf|Hf]; [|lia].
        apply H1. apply (G4 o o1 x b1 Hx E1). congruence.
      + apply (G4 o1 o2 b1 b2); auto.
  Qed.

  Lemma good_new h os a h' b l : good (h, os) a -> okbuf h' b l -> length h <= s_buf b ->
    (forall k, k < length h -> nth_error h' k = nth_error h k) ->
    good (h', os ++ [Some b]) (a ++ [Some l]).
  Proof.
    intros (G1 & G2 & G3 & G4) HB Hfresh Hh. cbn [snd] in *.
    assert (HBl : forall o' y, getobj (h, os) o' = Some y -> s_buf y < length h).
    { intros o' y Hy. destruct (G3 o' y Hy) as (ly & _ & E & _). eapply nth_error_lt; eauto. }
    split; [cbn [snd]; rewrite !app_length; simpl; lia|]. split; [|split].
    - intros o'. rewrite (getobj_new h os), aget_new, G1. destruct (o' =? length a); [split; discriminate|]. apply G2.
    - intros o' y. rewrite (getobj_new h os), aget_new, G1. cbn [fst]. destruct (Nat.eqb_spec o' (length a)) as [->|Hn].
      + intros E. inversion E; subst. exists l. split; auto.
      + intros Hy. destruct (G3 o' y Hy) as (ly & A & B & C). exists ly. split; auto. rewrite Hh; eauto.
    - intros o1 o2 b1 b2. rewrite !(getobj_new h os).
      destruct (Nat.eqb_spec o1 (length os)) as [->|H1], (Nat.eqb_spec o2 (length os)) as [->|H2]; auto; intros E1 E2 Eb.
      + exfalso. inversion E1; subst b1. pose proof (HBl _ _ E2). lia.
      + exfalso. inversion E2; subst b2. pose proof (HBl _ _ E1). lia.
      + apply (G4 o1 o2 b1 b2); auto.
  Qed.

  Lemma good_mem h os a h' : good (h, os) a -> (forall k, k < length h -> nth_error h' k = nth_error h k) -> good (h', os) a.
  Proof.
    intros (G1 & G2 & G3 & G4) Hh. split; auto. split; [exact G2|]. split; [|exact G4].
    intros o b Hb. destruct (G3 o b Hb) as (l & A & B & C). exists l. split; auto. cbn [fst] in *. rewrite Hh; auto. eapply nth_error_lt; eauto.
  Qed.

  Lemma good_obj w a o b : good w a -> getobj w o = Some b -> exists l, aget a o = Some l /\ okbuf (fst w) b l.
  Proof. intros (G1 & G2 & G3 & G4) H. destruct (G3 o b H) as (l & A & B). exists l. split; auto. Qed.

  Lemma good_aget w a o l : good w a -> aget a o = Some l -> exists b, getobj w o = Some b /\ okbuf (fst w) b l.
  Proof.
    intros G H. destruct (getobj w o) as [b|] eqn:E.
    - exists b. split; auto. destruct (good_obj w a o b G E) as (l' & A & B). rewrite H in A. inversion A; subst. auto.
    - destruct G as (_ & G2 & _). apply G2 in E. congruence.
  Qed.

  Lemma upd_aget_same (a : astate) o l : aget a o = Some l -> upd a o (Some l) = a.
  Proof.
    unfold aget. intros H. destruct (nth_error a o) as [y|] eqn:E; [|discriminate]. subst y.
    apply nth_error_ext. intros i. rewrite nth_error_upd. destruct (Nat.eqb_spec o i) as [->|]; auto.
    pose proof (nth_error_lt _ _ _ E). apply Nat.ltb_lt in H. now rewrite H.
  Qed.
  Lemma upd_getobj_same (w : world) o b : getobj w o = Some b -> upd (snd w) o (Some b) = snd w.
  Proof.
    unfold getobj. intros H. destruct (nth_error (snd w) o) as [[y|]|] eqn:E; try discriminate. inversion H; subst.
    apply nth_error_ext. intros i. rewrite nth_error_upd. destruct (Nat.eqb_spec o i) as [->|]; auto.
    pose proof (nth_error_lt _ _ _ E) as HH. apply Nat.ltb_lt in HH. now rewrite HH.
  Qed.
  Lemma sync_same h b l : okbuf h b l -> sync b = b.
  Proof. intros (_ & _ & _ & A & B). destruct b; unfold sync; simpl in *. congruence. Qed.

  Lemma upd_keep (h : mem) k x : forall i, i <> k -> nth_error (upd h k x) i = nth_error h i.
  Proof. intros i H. rewrite nth_error_upd. destruct (Nat.eqb_spec k i); congruence. Qed.

  (** resize / reserve / assign on the storage of one object *)
  Lemma guarded h os a o x l (r : res (mem * bv) unit) l' : good (h, os) a -> getobj (h, os) o = Some x -> aget a o = Some l ->
    (forall h' b, r = ROk (h', b) tt -> (h' = upd h (s_buf x) (Some l') /\ b = mkbv (s_buf x) (length l') (s_cap x) (b_p x) (b_n x) /\ length l' <= s_cap x) \/
         (exists cap, length l' <= cap /\ (h', b) = replace_buffer h x l' cap)) ->
    forall h' b, r = ROk (h', b) tt -> good (h', upd os o (Some (sync b))) (upd a o (Some l')).
  Proof.
    intros G Hx Hl HR h' b E. destruct (good_obj _ _ _ _ G Hx) as (lx & A & B1 & B2 & B3 & B4 & B5).
    rewrite Hl in A. inversion A; subst lx. cbn [fst] in *. pose proof (nth_error_lt _ _ _ B1) as HBx.
    destruct (HR h' b E) as [(-> & -> & HC)|(cap & HC & Ec)].
    - eapply good_set; eauto.
      + unfold okbuf, sync. cbn [s_buf s_size s_cap b_p b_n]. repeat split; auto. rewrite nth_error_upd, Nat.eqb_refl.
        apply Nat.ltb_lt in HBx. now rewrite HBx.
      + intros k _ Hk. apply upd_keep; auto.
    - inversion Ec; subst. eapply good_set; eauto.
      + unfold okbuf, sync. cbn [s_buf s_size s_cap b_p b_n]. repeat split; auto. rewrite nth_error_app2; rewrite upd_length; auto.
        now rewrite Nat.sub_diag.
      + intros k Hk1 Hk. rewrite nth_error_app1 by (rewrite upd_length; auto). apply upd_keep; auto.
  Qed.

  Lemma good_swap h os a o x bo bx lo lx : good (h, os) a -> getobj (h, os) o = Some bo -> getobj (h, os) x = Some bx ->
    aget a o = Some lo -> aget a x = Some lx ->
    good (do_swap (h, os) o x bo bx) (upd (upd a o (Some lx)) x (Some lo)).
  Proof.
    intros G Ho Hx Ao Ax. unfold do_swap. destruct (Nat.eqb_spec o x) as [->|Hn].
    - rewrite Ao in Ax. inversion Ax; subst. rewrite !upd_aget_same by (rewrite ?upd_aget_same; auto). auto.
    - destruct (good_obj _ _ _ _ G Ho) as (l1 & A1 & B1). destruct (good_obj _ _ _ _ G Hx) as (l2 & A2 & B2).
      rewrite Ao in A1. inversion A1; subst l1. rewrite Ax in A2. inversion A2; subst l2.
      pose proof (getobj_lt _ _ _ Ho) as Lo. pose proof (getobj_lt _ _ _ Hx) as Lx. cbn [snd fst] in *.
      destruct G as (G1 & G2 & G3 & G4). cbn [snd fst] in *.
      assert (Q : forall b', forall o', getobj (h, upd (upd os o b') x (Some (sync (mkbv (s_buf bo) (s_size bo) (s_cap bo) (b_p bx) (b_n bx))))) o' =
        if x =? o' then Some (sync (mkbv (s_buf bo) (s_size bo) (s_cap bo) (b_p bx) (b_n bx))) else if o =? o' then b' else getobj (h, os) o').
      { intros b' o'. rewrite (getobj_upd h (upd os o b')) by (rewrite upd_length; auto). destruct (x =? o'); auto. now rewrite (getobj_upd h os). }
      split; [cbn [snd]; now rewrite !upd_length|]. split; [|split].
      + intros o'. rewrite Q. rewrite aget_upd by (rewrite upd_length; lia). rewrite aget_upd by lia.
        destruct (x =? o'); [split; discriminate|]. destruct (o =? o'); [split; discriminate|]. apply G2.
      + intros o' b. rewrite Q. rewrite aget_upd by (rewrite upd_length; lia). rewrite aget_upd by lia. cbn [fst].
        destruct B1 as (C1 & C2 & C3 & _). destruct B2 as (D1 & D2 & D3 & _).
        destruct (x =? o'); [intros E; inversion E; subst; exists lo; cbn; auto 8|].
        destruct (o =? o'); [intros E; inversion E; subst; exists lx; cbn; auto 8|]. apply G3.
      + intros o1 o2 b1 b2. rewrite !Q.
        destruct (Nat.eqb_spec x o1) as [<-|H1], (Nat.eqb_spec x o2) as [<-|H2]; auto; intros E1 E2 Eb.
        * inversion E1; subst b1. cbn in Eb. destruct (Nat.eqb_spec o o2) as [<-|H3].
          { inversion E2; subst b2. cbn in Eb. apply (G4 x o bx bo); auto. }
          { exfalso. apply H3. apply (G4 o o2 bo b2); auto. }
        * inversion E2; subst b2. cbn in Eb. destruct (Nat.eqb_spec o o1) as [<-|H3].
          { inversion E1; subst b1. cbn in Eb. apply (G4 o x bo bx); auto. }
          { exfalso. apply H3. apply (G4 o o1 bo b1); auto. }
        * destruct (Nat.eqb_spec o o1) as [<-|H3], (Nat.eqb_spec o o2) as [<-|H4]; auto.
          { inversion E1; subst b1. cbn in Eb. exfalso. apply H2. apply (G4 x o2 bx b2); auto. }
          { inversion E2; subst b2. cbn in Eb. exfalso. apply H1. apply (G4 x o1 bx b1); auto. }
          { apply (G4 o1 o2 b1 b2); auto. }
  Qed.

  Lemma v_resize_cases h x n fail nc l h' b : nth_error h (s_buf x) = Some (Some l) -> v_resize h x n fail nc = ROk (h', b) tt ->
    (h' = upd h (s_buf x) (Some (vresize n l)) /\ b = mkbv (s_buf x) (length (vresize n l)) (s_cap x) (b_p x) (b_n x) /\ length (vresize n l) <= s_cap x) \/
    (exists cap, length (vresize n l) <= cap /\ (h', b) = replace_buffer h x (vresize n l) cap).
  Proof.
    intros Hl. unfold v_resize. rewrite Hl. pose proof (proj1 (vresize_spec n l)) as HL.
    destruct (Nat.leb_spec n (s_cap x)) as [Hc|Hc].
    - intros E. inversion E; subst. left. rewrite HL. auto.
    - destruct fail; [discriminate|]. intros E. inversion E; subst. right. eexists. split; [|unfold replace_buffer; reflexivity]. rewrite HL. lia.
  Qed.

  Lemma v_resize_throw h x n fail nc h' b e : v_resize h x n fail nc = RThrow (h', b) e -> h' = h /\ b = x /\ e = EAlloc /\ fail = true.
  Proof.
    unfold v_resize. destruct (nth_error h (s_buf x)) as [[l|]|]; try discriminate. destruct (n <=? s_cap x); [discriminate|].
    destruct fail; [|discriminate]. intros E; inversion E; auto.
  Qed.
  Lemma v_reserve_throw h x n fail nc h' b e : v_reserve h x n fail nc = RThrow (h', b) e -> h' = h /\ b = x /\ e = EAlloc /\ fail = true.
  Proof.
    unfold v_reserve. destruct (nth_error h (s_buf x)) as [[l|]|]; try discriminate. destruct (n <=? s_cap x); [discriminate|].
    destruct fail; [|discriminate]. intros E; inversion E; auto.
  Qed.
  Lemma v_assign_throw h x y fail nc h' b e : v_assign h x y fail nc = RThrow (h', b) e -> h' = h /\ b = x /\ e = EAlloc /\ fail = true.
  Proof.
    unfold v_assign. destruct (nth_error h (s_buf x)) as [[l|]|]; try discriminate. destruct (nth_error h (s_buf y)) as [[l2|]|]; try discriminate.
    destruct (length l2 <=? s_cap x); [discriminate|].
    destruct fail; [|discriminate]. intros E; inversion E; auto.
  Qed.

  Lemma guard_throw h os a o x h' b : good (h, os) a -> getobj (h, os) o = Some x -> h' = h -> b = x ->
    good (setobj (h, os) h' o (sync b)) a.
  Proof.
    intros G Hx -> ->. destruct (good_obj _ _ _ _ G Hx) as (l & A & B). unfold setobj. cbn [snd].
    rewrite (sync_same h x l B). change os with (snd (h, os)) at 1. rewrite (upd_getobj_same (h, os) o x Hx). auto.
  Qed.

  Lemma fresh_ok (h : mem) l cap : length l <= cap -> okbuf (h ++ [Some l]) (sync (mkbv (length h) (length l) cap 0 0)) l.
  Proof.
    intros H. unfold okbuf, sync. cbn. repeat split; auto. rewrite nth_error_app2, Nat.sub_diag by lia. reflexivity.
  Qed.
  Lemma app_keep (h : mem) t : forall k, k < length h -> nth_error (h ++ t) k = nth_error h k.
  Proof. intros k H. apply nth_error_app1; auto. Qed.
  Lemma vresize_nil n : vresize n nil = repeat zv n.
  Proof. unfold vresize. rewrite firstn_nil. cbn [length app]. now rewrite Nat.sub_0_r. Qed.

  Lemma guard_ok h os a o x l l' (r : res (mem * bv) unit) w' : good (h, os) a -> getobj (h, os) o = Some x -> aget a o = Some l ->
    (forall h' b, r = ROk (h', b) tt -> (h' = upd h (s_buf x) (Some l') /\ b = mkbv (s_buf x) (length l') (s_cap x) (b_p x) (b_n x) /\ length l' <= s_cap x) \/
         (exists cap, length l' <= cap /\ (h', b) = replace_buffer h x l' cap)) ->
    match r with
      | ROk (h', b) _ => ROk (setobj (h, os) h' o (sync b)) tt
      | RThrow (h', b) e => RThrow (setobj (h, os) h' o (sync b)) e
      | RUB => RUB
      end = ROk w' tt -> good w' (upd a o (Some l')).
  Proof.
    intros G Hx Ao HR E. destruct r as [[h' b] []|[h' b] e|] eqn:Er; try discriminate. inversion E; subst.
    unfold setobj. cbn [snd]. eapply guarded; [exact G|exact Hx|exact Ao|exact HR|reflexivity].
  Qed.

  Lemma step_good w a c w' a' : good w a -> effect a (fst c) a' -> step w c = ROk w' tt -> good w' a'.
  Proof.
    destruct c as [c [fail nc]]. destruct w as [h os]. cbn [fst]. intros G He Hs. unfold step in Hs.
    destruct He; cbn [fst snd] in Hs.
    - (* CNew *) destruct (fail && (0 <? n)); [discriminate|]. inversion Hs; subst. unfold newobj. cbn [snd].
      eapply good_new; eauto using app_keep.
      rewrite <- (repeat_length zv n) at 2. apply fresh_ok. rewrite repeat_length. lia.
    - (* CInit *) destruct (fail && (0 <? length l)); [discriminate|]. inversion Hs; subst. unfold newobj. cbn [snd].
      eapply good_new; eauto using app_keep. apply fresh_ok. lia.
    - (* CNewCap *)
      assert (KEY : forall h1 b1, nth_error h1 (s_buf b1) = Some (Some nil) -> length h <= s_buf b1 -> (forall i, i < length h -> nth_error h1 i = nth_error h i) ->
        match v_resize h1 b1 n fail nc with
            | ROk (h2, b2) _ => ROk (newobj (h, os) h2 (sync b2)) tt
            | RThrow (h2, b2) e => RThrow (upd h2 (s_buf b2) None, os) e
            | RUB => RUB
            end = ROk w' tt -> good w' (a ++ [Some (repeat zv n)])).
      { intros h1 b1 B L H E. destruct (v_resize h1 b1 n fail nc) as [[h2 b2] []|[h2 b2] e|] eqn:Er; try discriminate. inversion E; subst.
        pose proof B as B1. pose proof (nth_error_lt _ _ _ B1) as Hb.
        pose proof (v_resize_cases h1 b1 n fail nc nil h2 b2 B1 Er) as HC. rewrite vresize_nil in HC.
        unfold newobj. cbn [snd].
        destruct HC as [(-> & -> & HC)|(cap & HC & Ec)].
        - eapply good_new; eauto.
          + unfold okbuf, sync. cbn. rewrite repeat_length. rewrite repeat_length in HC. repeat split; auto. rewrite nth_error_upd, Nat.eqb_refl.
            apply Nat.ltb_lt in Hb. now rewrite Hb.
          + intros i Hi. rewrite upd_keep by lia. auto.
        - inversion Ec; subst. eapply good_new; eauto.
          + unfold okbuf, sync. cbn. rewrite repeat_length in *. repeat split; auto.
            rewrite nth_error_app2; rewrite upd_length; auto. now rewrite Nat.sub_diag.
          + cbn. lia.
          + intros i Hi. rewrite nth_error_app1 by (rewrite upd_length; lia). rewrite upd_keep by lia. auto. }
      assert (B0 : okbuf (h ++ [Some nil]) (mkbv (length h) 0 0 (length h) 0) nil).
      { unfold okbuf. cbn. repeat split; auto. rewrite nth_error_app2, Nat.sub_diag by lia. reflexivity. }
      cbn [bv_empty] in Hs. unfold bv_empty in Hs. destruct (n <? k).
      + destruct (v_reserve (h ++ [Some nil]) (mkbv (length h) 0 0 (length h) 0) k fail nc) as [[h1 b1] []|[h1 b1] e|] eqn:Er; try discriminate.
        unfold v_reserve in Er. cbn [s_buf s_cap] in Er. pose proof (proj1 B0) as B01. cbn [s_buf] in B01. rewrite B01 in Er.
        destruct (k <=? 0).
        * inversion Er; subst. eapply KEY; [exact (proj1 B0)| |apply app_keep|exact Hs]; cbn; auto.
        * destruct fail; [discriminate|]. inversion Er; subst. eapply KEY; [| | |exact Hs].
          { cbn. rewrite nth_error_app2; rewrite upd_length; auto. now rewrite Nat.sub_diag. }
          { cbn. rewrite ?upd_length, app_length. lia. }
          { intros i Hi. cbn. rewrite nth_error_app1 by (rewrite upd_length, app_length; cbn; lia). rewrite upd_keep by lia. apply app_keep; auto. }
      + eapply KEY; [exact (proj1 B0)| | |exact Hs]; cbn; auto using app_keep.
    - (* CCopy *) destruct (good_aget _ _ _ _ G H) as (y & Hy & By). rewrite Hy in Hs. unfold bv_empty in Hs.
      destruct By as (B1 & B2 & B3 & B4 & B5). cbn [fst] in B1. pose proof (nth_error_lt _ _ _ B1) as Hb.
      unfold v_assign in Hs. cbn [s_buf s_cap] in Hs. rewrite nth_error_app2, Nat.sub_diag in Hs by lia. cbn [nth_error] in Hs.
      rewrite app_keep, B1 in Hs by auto. destruct (Nat.leb_spec (length l) 0) as [Hz|Hz].
      + inversion Hs; subst. unfold newobj. cbn [snd]. eapply good_new; eauto.
        * unfold okbuf, sync. cbn. repeat split; auto. rewrite nth_error_upd, Nat.eqb_refl, app_length. cbn [length].
          destruct (Nat.ltb_spec (length h) (length h + 1)); [auto|lia].
        * intros i Hi. rewrite upd_keep by lia. apply app_keep; auto.
      + destruct fail; [discriminate|]. inversion Hs; subst. unfold newobj, replace_buffer. cbn [snd]. eapply good_new; eauto.
        * unfold okbuf, sync. cbn. repeat split; auto; [|lia]. rewrite nth_error_app2; rewrite upd_length; auto. now rewrite Nat.sub_diag.
        * cbn. rewrite app_length. lia.
        * intros i Hi. rewrite nth_error_app1 by (rewrite upd_length, app_length; cbn; lia). rewrite upd_keep by (cbn; lia). apply app_keep; auto.
    - (* CMoveNew *) destruct (good_aget _ _ _ _ G H) as (y & Hy & By). rewrite Hy in Hs. unfold bv_empty, newobj in Hs. cbn [snd fst] in Hs.
      inversion Hs; subst w'. clear Hs.
      assert (G' : good (h ++ [Some nil], os ++ [Some (mkbv (length h) 0 0 (length h) 0)]) (a ++ [Some nil])).
      { eapply good_new; eauto using app_keep. unfold okbuf. cbn. repeat split; auto. rewrite nth_error_app2, Nat.sub_diag by lia. reflexivity. }
      pose proof (getobj_lt _ _ _ Hy) as Hlx. cbn [snd] in Hlx. destruct G as (GL & _). cbn [snd] in GL.
      pose proof (good_swap (h ++ [Some nil]) _ _ (length os) x (mkbv (length h) 0 0 (length h) 0) y nil l G') as GS.
      replace (upd a x (Some nil) ++ [Some l]) with (upd (upd (a ++ [Some nil]) (length os) (Some l)) x (Some nil)).
      { apply GS.
        - rewrite (getobj_new h os), Nat.eqb_refl. auto.
        - rewrite (getobj_new h os). destruct (Nat.eqb_spec x (length os)); [lia|]. exact Hy.
        - rewrite aget_new, GL, Nat.eqb_refl. auto.
        - rewrite aget_new. destruct (Nat.eqb_spec x (length a)); [lia|]. auto. }
      clear GS G'. rewrite GL. assert (Hxa : x < length a) by lia. clear - Hxa. apply nth_error_ext. intros i.
      rewrite !nth_error_upd, !app_length. cbn [length].
      destruct (Nat.eqb_spec x i) as [->|Hxi].
      + rewrite upd_length, app_length. cbn [length]. rewrite nth_error_app1 by (rewrite upd_length; auto). rewrite nth_error_upd, Nat.eqb_refl.
        rewrite (proj2 (Nat.ltb_lt _ _) Hxa). destruct (Nat.ltb_spec i (length a + 1)); auto; lia.
      + destruct (Nat.eqb_spec (length a) i) as [<-|Hi].
        * destruct (Nat.ltb_spec (length a) (length a + 1)); [|lia]. rewrite nth_error_app2; rewrite upd_length; auto. now rewrite Nat.sub_diag.
        * destruct (Nat.lt_ge_cases i (length a)).
          { rewrite !nth_error_app1 by (rewrite ?upd_length; auto). rewrite nth_error_upd. destruct (Nat.eqb_spec x i); congruence. }
          { rewrite (proj2 (nth_error_None (a ++ [Some nil]) i)) by (rewrite app_length; cbn; lia).
            symmetry. apply nth_error_None. rewrite app_length, upd_length. cbn. lia. }
    - (* CResize *) destruct (good_aget _ _ _ _ G H) as (x & Hx & Bx). rewrite Hx in Hs. destruct Bx as (B1 & Bx).
      rewrite (resized_unique _ _ _ _ H0 (vresize_spec n l)). eapply guard_ok; eauto. intros h' b Er. eapply v_resize_cases; eauto.
    - (* CReserve *) destruct (good_aget _ _ _ _ G H) as (x & Hx & Bx). rewrite Hx in Hs. pose proof Bx as (B1 & B2 & B3 & B4 & B5). cbn [fst] in B1.
      rewrite <- (upd_aget_same a o l H). eapply guard_ok; eauto. intros h' b Er. unfold v_reserve in Er. rewrite B1 in Er.
      destruct (Nat.leb_spec k (s_cap x)).
      + inversion Er; subst. left. split; [|split; [|lia]].
        * apply nth_error_ext. intros i. rewrite nth_error_upd. destruct (Nat.eqb_spec (s_buf b) i) as [<-|]; auto.
          pose proof (nth_error_lt _ _ _ B1) as Hb. apply Nat.ltb_lt in Hb. now rewrite Hb.
        * destruct b; cbn in *; congruence.
      + destruct fail; [discriminate|]. inversion Er; subst. right. eexists. split; [|unfold replace_buffer; reflexivity]. lia.
    - (* CAssign *) destruct (good_aget _ _ _ _ G H) as (xo & Ho & Bo). destruct (good_aget _ _ _ _ G H0) as (xx & Hx & Bx). rewrite Ho, Hx in Hs.
      destruct Bo as (B1 & B2 & B3 & B4 & B5). destruct Bx as (C1 & C2). cbn [fst] in B1, C1.
      eapply guard_ok; [exact G|exact Ho|exact H| |exact Hs]. intros h' b Er. unfold v_assign in Er. rewrite B1, C1 in Er.
      destruct (Nat.leb_spec (length l) (s_cap xo)).
      + inversion Er; subst. left. auto.
      + destruct fail; [discriminate|]. inversion Er; subst. right. eexists. split; [|unfold replace_buffer; reflexivity]. lia.
    - (* CMoveAssign *) destruct (good_aget _ _ _ _ G H) as (xo & Ho & Bo). destruct (good_aget _ _ _ _ G H0) as (xx & Hx & Bx). rewrite Ho, Hx in Hs.
      inversion Hs; subst. eapply good_swap; eauto.
    - (* CSwap *) destruct (good_aget _ _ _ _ G H) as (xo & Ho & Bo). destruct (good_aget _ _ _ _ G H0) as (xx & Hx & Bx). rewrite Ho, Hx in Hs.
      inversion Hs; subst. eapply good_swap; eauto.
    - (* CFill *) destruct (good_aget _ _ _ _ G H) as (x & Hx & Bx). rewrite Hx in Hs. pose proof Bx as (B1 & B2 & B3 & B4 & B5). cbn [fst] in B1.
      rewrite B4, B1, B5, B2 in Hs. rewrite Nat.leb_refl in Hs. inversion Hs; subst. rewrite skipn_all, app_nil_r.
      change os with (snd (h, os)). rewrite <- (upd_getobj_same (h, os) o x Hx). cbn [snd]. eapply good_set; eauto.
      + unfold okbuf. rewrite repeat_length. repeat split; auto. rewrite nth_error_upd, Nat.eqb_refl.
        pose proof (nth_error_lt _ _ _ B1) as Hb. apply Nat.ltb_lt in Hb. now rewrite Hb.
      + intros i _ Hi. apply upd_keep; auto.
    - (* CWrite *) destruct (good_aget _ _ _ _ G H) as (x & Hx & Bx). rewrite Hx in Hs. pose proof Bx as (B1 & B2 & B3 & B4 & B5). cbn [fst] in B1.
      rewrite B4, B1, B5, B2 in Hs. rewrite (proj2 (Nat.ltb_lt _ _) H0) in Hs. cbn [andb] in Hs. inversion Hs; subst.
      change os with (snd (h, os)). rewrite <- (upd_getobj_same (h, os) o x Hx). cbn [snd]. eapply good_set; eauto.
      + unfold okbuf. rewrite upd_length. repeat split; auto. rewrite nth_error_upd, Nat.eqb_refl.
        pose proof (nth_error_lt _ _ _ B1) as Hb. apply Nat.ltb_lt in Hb. now rewrite Hb.
      + intros j _ Hj. apply upd_keep; auto.
    - (* CDestroy *) destruct (good_aget _ _ _ _ G H) as (x & Hx & Bx). rewrite Hx in Hs. inversion Hs; subst.
      pose proof (getobj_lt _ _ _ Hx) as Ho. destruct G as (G1 & G2 & G3 & G4). cbn [snd fst] in *.
      split; [cbn [snd]; now rewrite !upd_length|]. split; [|split].
      + intros o'. rewrite (getobj_upd h os) by auto. rewrite aget_upd by lia. destruct (o =? o'); [tauto|]. apply G2.
      + intros o' b. rewrite (getobj_upd h os) by auto. rewrite aget_upd by lia. destruct (Nat.eqb_spec o o') as [->|Hn]; [discriminate|].
        intros Hb. destruct (G3 o' b Hb) as (lb & A & B & C). exists lb. split; auto. cbn [fst]. rewrite upd_keep; auto.
        intros Eb. apply Hn. symmetry. apply (G4 o' o b x Hb Hx). auto.
      + intros o1 o2 b1 b2. rewrite !(getobj_upd h os) by auto. destruct (o =? o1); [discriminate|]. destruct (o =? o2); [discriminate|]. apply G4.
  Qed.

  Lemma step_throw w a c w' a' e : good w a -> effect a (fst c) a' -> step w c = RThrow w' e ->
    good w' a /\ e = EAlloc /\ fst (snd c) = true.
  Proof.
    destruct c as [c [fail nc]]. destruct w as [h os]. cbn [fst snd]. intros G He Hs. unfold step in Hs.
    assert (GB : forall h', (forall k, k < length h -> nth_error h' k = nth_error h k) -> good (h', os) a) by (intros; eapply good_mem; eauto).
    assert (GT : forall o x (r : res (mem * bv) unit), getobj (h, os) o = Some x -> (forall h' b e, r = RThrow (h', b) e -> h' = h /\ b = x /\ e = EAlloc /\ fail = true) ->
      match r with
      | ROk (h', b) _ => ROk (setobj (h, os) h' o (sync b)) tt
      | RThrow (h', b) e => RThrow (setobj (h, os) h' o (sync b)) e
      | RUB => RUB
      end = @RThrow world unit w' e -> good w' a /\ e = EAlloc /\ fail = true).
    { intros o x r Hx Hr E. destruct r as [[h' b] []|[h' b] e'|] eqn:Er; try discriminate. inversion E; subst.
      destruct (Hr _ _ _ eq_refl) as (E1 & E2 & E3 & E4). split; auto. eapply guard_throw; eauto. }
    destruct He; cbn [fst snd] in Hs.
    - destruct fail; cbn [andb] in Hs; [|discriminate]. destruct (0 <? n); inversion Hs; subst; auto.
    - destruct fail; cbn [andb] in Hs; [|discriminate]. destruct (0 <? length l); inversion Hs; subst; auto.
    - unfold bv_empty in Hs. unfold v_reserve in Hs. cbn [s_buf s_cap] in Hs. rewrite nth_error_app2, Nat.sub_diag in Hs by lia. cbn [nth_error] in Hs.
      assert (KT : forall h1 b1, length h <= s_buf b1 -> (forall i, i < length h -> nth_error h1 i = nth_error h i) ->
        match v_resize h1 b1 n fail nc with
            | ROk (h2, b2) _ => ROk (newobj (h, os) h2 (sync b2)) tt
            | RThrow (h2, b2) e => RThrow (upd h2 (s_buf b2) None, os) e
            | RUB => RUB
            end = @RThrow world unit w' e -> good w' a /\ e = EAlloc /\ fail = true).
      { intros h1 b1 L H E. destruct (v_resize h1 b1 n fail nc) as [[h2 b2] []|[h2 b2] e'|] eqn:Er; try discriminate. inversion E; subst.
        destruct (v_resize_throw _ _ _ _ _ _ _ _ Er) as (-> & -> & E2 & ->). split; auto. apply GB. intros i Hi. rewrite upd_keep by lia. auto. }
      destruct (n <? k).
      + destruct (k <=? 0).
        * eapply KT; [| |exact Hs]; [cbn; lia|apply app_keep].
        * destruct fail.
          { inversion Hs; subst. split; auto. apply GB. intros i Hi. rewrite upd_keep by (cbn; lia). apply app_keep; auto. }
          { eapply KT; [| |exact Hs]; cbn; [rewrite app_length; lia|]. intros i Hi.
            rewrite nth_error_app1 by (rewrite upd_length, app_length; cbn; lia). rewrite upd_keep by lia. apply app_keep; auto. }
      + eapply KT; [| |exact Hs]; [cbn; lia|apply app_keep].
    - destruct (good_aget _ _ _ _ G H) as (y & Hy & By). rewrite Hy in Hs. unfold bv_empty in Hs.
      destruct (v_assign _ _ y fail nc) as [[h1 b1] []|[h1 b1] e'|] eqn:Er; try discriminate. inversion Hs; subst.
      destruct (v_assign_throw _ _ _ _ _ _ _ _ Er) as (-> & -> & E2 & ->). split; auto. apply GB. intros i Hi.
      rewrite upd_keep by (cbn; lia). apply app_keep; auto.
    - destruct (good_aget _ _ _ _ G H) as (y & Hy & By). rewrite Hy in Hs. discriminate.
    - destruct (good_aget _ _ _ _ G H) as (x & Hx & Bx). rewrite Hx in Hs. eapply GT; eauto. intros. eapply v_resize_throw; eauto.
    - destruct (good_aget _ _ _ _ G H) as (x & Hx & Bx). rewrite Hx in Hs. eapply GT; eauto. intros. eapply v_reserve_throw; eauto.
    - destruct (good_aget _ _ _ _ G H) as (xo & Ho & Bo). destruct (good_aget _ _ _ _ G H0) as (xx & Hx & Bx). rewrite Ho, Hx in Hs.
      eapply GT; [exact Ho| |exact Hs]. intros. eapply v_assign_throw; eauto.
    - destruct (good_aget _ _ _ _ G H) as (xo & Ho & Bo). destruct (good_aget _ _ _ _ G H0) as (xx & Hx & Bx). rewrite Ho, Hx in Hs. discriminate.
    - destruct (good_aget _ _ _ _ G H) as (xo & Ho & Bo). destruct (good_aget _ _ _ _ G H0) as (xx & Hx & Bx). rewrite Ho, Hx in Hs. discriminate.
    - destruct (getobj (h, os) o); [|discriminate]. destruct (nth_error h (b_p b)) as [[l'|]|]; try discriminate. destruct (b_n b <=? length l'); discriminate.
    - destruct (getobj (h, os) o); [|discriminate]. destruct (nth_error h (b_p b)) as [[l'|]|]; try discriminate.
      destruct ((i <? b_n b) && (i <? length l')); discriminate.
    - destruct (getobj (h, os) o); discriminate.
  Qed.

  Lemma step_noub w a c a' : good w a -> effect a (fst c) a' -> step w c <> RUB.
  Proof.
    destruct c as [c [fail nc]]. destruct w as [h os]. cbn [fst snd]. intros G He. unfold step.
    assert (GT : forall o (r : res (mem * bv) unit), r <> RUB ->
      match r with
      | ROk (h', b) _ => ROk (setobj (h, os) h' o (sync b)) tt
      | RThrow (h', b) e => RThrow (setobj (h, os) h' o (sync b)) e
      | RUB => RUB
      end <> RUB).
    { intros o r Hr. destruct r as [[h' b] []|[h' b] e'|]; congruence. }
    assert (NR : forall h' x n l, nth_error h' (s_buf x) = Some (Some l) -> v_resize h' x n fail nc <> RUB).
    { intros h' x n l Hl. unfold v_resize. rewrite Hl. destruct (n <=? s_cap x); [|destruct fail]; discriminate. }
    assert (NV : forall h' x n l, nth_error h' (s_buf x) = Some (Some l) -> v_reserve h' x n fail nc <> RUB).
    { intros h' x n l Hl. unfold v_reserve. rewrite Hl. destruct (n <=? s_cap x); [|destruct fail]; discriminate. }
    assert (NA : forall h' x y l k, nth_error h' (s_buf x) = Some (Some l) -> nth_error h' (s_buf y) = Some (Some k) -> v_assign h' x y fail nc <> RUB).
    { intros h' x y l k Hl Hk. unfold v_assign. rewrite Hl, Hk. destruct (length k <=? s_cap x); [|destruct fail]; discriminate. }
    assert (NE : nth_error (h ++ [Some nil]) (length h) = Some (Some nil)) by (rewrite nth_error_app2, Nat.sub_diag by lia; auto).
    destruct He; cbn [fst snd].
    - destruct (fail && (0 <? n)); discriminate.
    - destruct (fail && (0 <? length l)); discriminate.
    - unfold bv_empty. destruct (n <? k).
      + destruct (v_reserve (h ++ [Some nil]) (mkbv (length h) 0 0 (length h) 0) k fail nc) as [[h1 b1] []|[h1 b1] e'|] eqn:Er; [|discriminate|].
        * assert (H1 : nth_error h1 (s_buf b1) = Some (Some nil)).
          { unfold v_reserve in Er. cbn [s_buf s_cap] in Er. rewrite NE in Er. destruct (k <=? 0); [inversion Er; subst; auto|].
            destruct fail; [discriminate|]. inversion Er; subst. cbn. rewrite nth_error_app2; rewrite upd_length; auto. now rewrite Nat.sub_diag. }
          pose proof (NR h1 b1 n nil H1). destruct (v_resize h1 b1 n fail nc) as [[h2 b2] []|[h2 b2] e'|]; congruence.
        * exfalso. exact (NV (h ++ [Some nil]) (mkbv (length h) 0 0 (length h) 0) k nil NE Er).
      + pose proof (NR (h ++ [Some nil]) (mkbv (length h) 0 0 (length h) 0) n nil NE).
        destruct (v_resize (h ++ [Some nil]) (mkbv (length h) 0 0 (length h) 0) n fail nc) as [[h2 b2] []|[h2 b2] e'|]; congruence.
    - destruct (good_aget _ _ _ _ G H) as (y & Hy & By). rewrite Hy. unfold bv_empty. destruct By as (B1 & _). cbn [fst] in B1.
      assert (B1' : nth_error (h ++ [Some nil]) (s_buf y) = Some (Some l)) by (rewrite app_keep; auto; eapply nth_error_lt; eauto).
      pose proof (NA _ (mkbv (length h) 0 0 (length h) 0) y nil l NE B1').
      destruct (v_assign _ _ y fail nc) as [[h1 b1] []|[h1 b1] e'|]; congruence.
    - destruct (good_aget _ _ _ _ G H) as (y & Hy & By). rewrite Hy. discriminate.
    - destruct (good_aget _ _ _ _ G H) as (x & Hx & Bx). rewrite Hx. apply GT. eapply NR. apply Bx.
    - destruct (good_aget _ _ _ _ G H) as (x & Hx & Bx). rewrite Hx. apply GT. eapply NV. apply Bx.
    - destruct (good_aget _ _ _ _ G H) as (xo & Ho & Bo). destruct (good_aget _ _ _ _ G H0) as (xx & Hx & Bx). rewrite Ho, Hx.
      apply GT. eapply NA; [apply Bo|apply Bx].
    - destruct (good_aget _ _ _ _ G H) as (xo & Ho & Bo). destruct (good_aget _ _ _ _ G H0) as (xx & Hx & Bx). rewrite Ho, Hx. discriminate.
    - destruct (good_aget _ _ _ _ G H) as (xo & Ho & Bo). destruct (good_aget _ _ _ _ G H0) as (xx & Hx & Bx). rewrite Ho, Hx. discriminate.
    - destruct (good_aget _ _ _ _ G H) as (x & Hx & (B1 & B2 & B3 & B4 & B5)). cbn [fst] in B1. rewrite Hx, B4, B1, B5, B2, Nat.leb_refl. discriminate.
    - destruct (good_aget _ _ _ _ G H) as (x & Hx & (B1 & B2 & B3 & B4 & B5)). cbn [fst] in B1. rewrite Hx, B4, B1, B5, B2.
      rewrite (proj2 (Nat.ltb_lt _ _) H0). discriminate.
    - destruct (good_aget _ _ _ _ G H) as (x & Hx & _). rewrite Hx. discriminate.
  Qed.

  Lemma history_good w a : history w a -> good w a.
  Proof.
    induction 1 as [|w a c w' a' _ IH He Hs|w a c w' a' e _ IH He Hs].
    - split; [auto|]. split; [intros o; unfold getobj, aget; destruct o; cbn; tauto|].
      split; intros o; unfold getobj; destruct o; cbn; intros; discriminate.
    - eapply step_good; eauto.
    - eapply step_throw; eauto.
  Qed.

  (** After any history of commands (with any allocation failing) every object shows exactly the list of blocks
      the commands specify; in particular the window of a moved-from, swapped, resized or throwing object is the
      one of its own storage. *)
  Theorem C12_contents w a : history w a -> forall o, observe w o = aget a o.
  Proof.
    intros H o. apply history_good in H. unfold observe. destruct (getobj w o) as [b|] eqn:E.
    - destruct (good_obj _ _ _ _ H E) as (l & A & B1 & B2 & B3 & B4 & B5). rewrite B4, B1, B5, B2, Nat.leb_refl, firstn_all. auto.
    - destruct H as (_ & H & _). symmetry. apply H. auto.
  Qed.

  (** Every operation on live objects (indices in range) has defined behaviour, throws only std::bad_alloc and only
      if an allocation fails, and nothing any object shows is changed by a throwing operation. *)
  Theorem C12_strong_guarantee w a c a' : history w a -> effect a (fst c) a' ->
    (exists w', step w c = ROk w' tt /\ forall o, observe w' o = aget a' o) \/
    (exists w', step w c = RThrow w' EAlloc /\ fst (snd c) = true /\ forall o, observe w' o = observe w o).
  Proof.
    intros H He. pose proof (history_good _ _ H) as G. destruct (step w c) as [w' []|w' e|] eqn:E.
    - left. exists w'. split; auto. apply C12_contents. eapply h_ok; eauto.
    - right. exists w'. destruct (step_throw _ _ _ _ _ _ G He E) as (A & -> & B). split; auto. split; auto. intros o.
      rewrite (C12_contents w a H). apply C12_contents. eapply h_throw; eauto.
    - exfalso. eapply step_noub; eauto.
  Qed.
End BVector.
Arguments step {V}. Arguments history {V}. Arguments effect {V}. Arguments observe {V}. Arguments aget {V}.

(** a case that meets the hypotheses: construct, write, copy, resize (reallocating), failing resize, swap, move *)
Definition ex12 : list (cmd * (bool * nat)) :=
  [(CNew 2, (false, 0)); (CWrite 0 1 7, (false, 0)); (CCopy 0, (false, 0)); (CResize 1 3, (false, 9));
   (CResize 0 5, (true, 0)); (CSwap 0 1, (false, 0)); (CMoveNew 0, (false, 0)); (CFill 1 4, (false, 0))].
Fixpoint run12 (w : world) (l : list (cmd * (bool * nat))) : option (world * list bool) :=
  match l with
  | nil => Some (w, nil)
  | c :: t => match step 0 w c with
              | ROk w' _ => match run12 w' t with Some (x, b) => Some (x, true :: b) | None => None end
              | RThrow w' _ => match run12 w' t with Some (x, b) => Some (x, false :: b) | None => None end
              | RUB => None
              end
  end.
Example C12_example : match run12 (nil, nil) ex12 with
  | Some (w, b) => (b, map (observe w) [0; 1; 2; 3]) = ([true; true; true; true; false; true; true; true], [Some nil; Some [4; 4]; Some [0; 7; 0]; None])
  | None => False end.
Proof. reflexivity. Qed.
Example C12_nonvacuous : exists w, history 0 w [Some [0; 7]; Some [0; 7; 0]].
Proof.
  eexists. eapply h_throw with (c := (CResize 0 5, (true, 0))) (a' := [Some [0; 7; 0; 0; 0]; Some [0; 7; 0]]).
  - eapply h_ok with (c := (CResize 1 3, (false, 9))) (a := [Some [0; 7]; Some [0; 7]]).
    + eapply h_ok with (c := (CCopy 0, (false, 0))) (a := [Some [0; 7]]).
      * eapply h_ok with (c := (CWrite 0 1 7, (false, 0))) (a := [Some [0; 0]]).
        { eapply h_ok with (c := (CNew 2, (false, 0))) (a := []); [apply h_start|apply (e_new 0 [] 2)|reflexivity]. }
        { apply (e_write 0 [Some [0; 0]] 0 1 7 [0; 0]); auto. }
        { reflexivity. }
      * apply (e_copy 0 [Some [0; 7]] 0 [0; 7]); auto.
      * reflexivity.
    + apply (e_resize 0 [Some [0; 7]; Some [0; 7]] 1 3 [0; 7] [0; 7; 0]); auto. split; auto.
      intros [|[|[|i]]] Hi; auto; lia.
    + reflexivity.
  - apply (e_resize 0 [Some [0; 7]; Some [0; 7; 0]] 0 5 [0; 7] [0; 7; 0; 0; 0]); auto. split; auto.
    intros [|[|[|[|[|i]]]]] Hi; auto; lia.
  - reflexivity.
Qed.
Print Assumptions C12_contents.
Print Assumptions C12_strong_guarantee.
