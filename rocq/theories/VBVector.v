(** * VariableBlockVector (C39): dune/istl/vbvector.hh *)
From Coq Require Import Arith List Lia Bool.
From Verif Require Import Sums Outcome Dense.
Import ListNotations.
Open Scope nat_scope.

(** ** Objects that own one buffer each: proof infrastructure *)
Section Owner.
  Context {V O Sp : Type}.
  Notation heap := (list (option (list V))).
  Variable bufof : O -> nat.
  Variable orel : heap -> O -> Sp -> Prop.
  Hypothesis orel_eq : forall h h' o m, nth_error h' (bufof o) = nth_error h (bufof o) -> orel h o m -> orel h' o m.
  Hypothesis orel_live : forall h o m, orel h o m -> exists l, nth_error h (bufof o) = Some (Some l).
  Definition orels (w : heap * list (option O)) (s : list (option Sp)) : Prop :=
    let '(h, objs) := w in
    length objs = length s /\
    (forall k, k < length s -> match nth k objs None, nth k s None with Some o, Some m => orel h o m | None, None => True | _, _ => False end) /\
    (forall k l o o', nth k objs None = Some o -> nth l objs None = Some o' -> bufof o = bufof o' -> k = l).
  Lemma orels_live h objs s k o : orels (h, objs) s -> nth k objs None = Some o -> k < length s /\ (exists l, nth_error h (bufof o) = Some (Some l)) /\ bufof o < length h.
  Proof.
    intros (L & R & _) HK. assert (k < length s). { rewrite <- L. destruct (Nat.lt_ge_cases k (length objs)); auto. rewrite nth_overflow in HK by auto. discriminate. }
    split; auto. specialize (R k H). rewrite HK in R. destruct (nth k s None) as [m|]; [|contradiction]. destruct (orel_live h o m R) as [l E]. split; [eauto|]. apply nth_error_Some. congruence.
  Qed.
  Lemma orels_alive h objs s k : orels (h, objs) s -> nth k s None <> None -> k < length s /\ exists o m, nth k objs None = Some o /\ nth k s None = Some m /\ orel h o m.
  Proof.
    intros (L & R & _) HA. assert (k < length s) by (destruct (Nat.lt_ge_cases k (length s)); auto; rewrite nth_overflow in HA by auto; congruence).
    split; auto. specialize (R k H). destruct (nth k objs None) as [o|], (nth k s None) as [m|]; try contradiction; try congruence. eauto.
  Qed.
  Lemma orels_upd h objs s k h' o m : orels (h, objs) s -> k < length s ->
    (forall l o1, l <> k -> nth l objs None = Some o1 -> nth_error h' (bufof o1) = nth_error h (bufof o1)) ->
    match o, m with Some o, Some m => orel h' o m | None, None => True | _, _ => False end ->
    (forall l o1 o2, l <> k -> nth l objs None = Some o1 -> o = Some o2 -> bufof o1 <> bufof o2) ->
    orels (h', upd objs k o) (upd s k m).
  Proof.
    intros (L & R & U) HK HH HO HN. split; [rewrite !upd_length; auto|]. split.
    - rewrite upd_length. intros l Hl. rewrite !nth_upd. rewrite L. destruct (Nat.eqb_spec k l) as [->|NE]; [destruct (Nat.ltb_spec l (length s)); [exact HO|lia]|].
      specialize (R l Hl). destruct (nth l objs None) as [o1|] eqn:E1, (nth l s None) as [m1|]; auto. apply (orel_eq h); auto. apply (HH l o1); auto.
    - intros l l' o1 o2 H1 H2 B. rewrite !nth_upd, L in *. destruct (Nat.eqb_spec k l) as [Q1|N1], (Nat.eqb_spec k l') as [Q2|N2]; [congruence| | |].
      + subst l. destruct (k <? length s); [|discriminate]. exfalso. apply (HN l' o2 o1); auto.
      + subst l'. destruct (k <? length s); [|discriminate]. exfalso. apply (HN l o1 o2); auto.
      + apply (U l l' o1 o2); auto.
  Qed.
  Lemma orels_app h objs s h' o m : orels (h, objs) s ->
    (forall l o1, nth l objs None = Some o1 -> nth_error h' (bufof o1) = nth_error h (bufof o1)) ->
    orel h' o m -> (forall l o1, nth l objs None = Some o1 -> bufof o1 <> bufof o) ->
    orels (h', objs ++ [Some o]) (s ++ [Some m]).
  Proof.
    intros (L & R & U) HH HO HN. split; [rewrite !app_length; cbn; lia|]. split.
    - rewrite app_length. cbn. intros l Hl. rewrite !nth_app_last by lia. rewrite L. destruct (Nat.eqb_spec l (length s)) as [->|NE]; auto. specialize (R l ltac:(lia)).
      destruct (nth l objs None) as [o1|] eqn:E1, (nth l s None) as [m1|]; auto. apply (orel_eq h); auto. apply (HH l o1); auto.
    - intros l l' o1 o2 H1 H2 B. assert (X : forall l o1, nth l (objs ++ [Some o]) None = Some o1 -> nth l objs None = Some o1 \/ l = length objs /\ o1 = o).
      { intros q q1 HQ. destruct (Nat.lt_ge_cases q (S (length objs))); [|rewrite nth_overflow in HQ by (rewrite app_length; cbn; lia); discriminate]. rewrite nth_app_last in HQ by auto. destruct (Nat.eqb_spec q (length objs)); auto. right. split; congruence. }
      destruct (X _ _ H1) as [X1|[X1 ->]], (X _ _ H2) as [X2|[X2 ->]]; [apply (U l l' o1 o2); auto| | |congruence]; exfalso; [apply (HN l o1); auto|apply (HN l' o2); auto].
  Qed.
  Lemma orels_swap h objs s k l : orels (h, objs) s -> k < length s -> l < length s -> orels (h, upd (upd objs k (nth l objs None)) l (nth k objs None)) (upd (upd s k (nth l s None)) l (nth k s None)).
  Proof.
    intros (L & R & U) HK HL. split; [rewrite !upd_length; auto|]. split.
    - rewrite !upd_length. intros i Hi. rewrite !nth_upd, !upd_length, L. destruct (Nat.eqb_spec l i) as [->|N1]; [destruct (Nat.ltb_spec i (length s)); [apply (R k); auto|lia]|].
      destruct (Nat.eqb_spec k i) as [->|N2]; [destruct (Nat.ltb_spec i (length s)); [apply (R l); auto|lia]|]. apply (R i); auto.
    - assert (X : forall i o, nth i (upd (upd objs k (nth l objs None)) l (nth k objs None)) None = Some o -> nth (if i =? l then k else if i =? k then l else i) objs None = Some o).
      { intros i o. rewrite !nth_upd, !upd_length, L. rewrite (Nat.eqb_sym l i), (Nat.eqb_sym k i). destruct (Nat.eqb_spec i l) as [->|]; [destruct (Nat.ltb_spec l (length s)); auto; lia|]. destruct (Nat.eqb_spec i k) as [->|]; auto. destruct (Nat.ltb_spec k (length s)); auto; lia. }
      intros i j o o' H1 H2 B. apply X in H1, H2. pose proof (U _ _ _ _ H1 H2 B) as E. destruct (Nat.eqb_spec i l), (Nat.eqb_spec j l), (Nat.eqb_spec i k), (Nat.eqb_spec j k); subst; auto; congruence.
  Qed.
End Owner.

Section VBV.
  Context {V : Type}.
  Variable zv : V.        (* a value-initialised block *)
  Notation heap := (list (option (list V))).
  (** a window (BlockVectorWindow): pointer (buffer, offset) and size; a null pointer is never dereferenced for size 0 and is modelled by any value *)
  Record win := mkwin { w_buf : nat; w_off : nat; w_size : nat }.
  (** storage_ (its buffer), base class p and n, block, initialized (vbvector.hh:541-543). A std::vector without memory is given its own empty buffer. *)
  Record vbv := mkvbv { v_buf : nat; v_p : nat; v_n : nat; v_block : list win; v_init : bool }.
  Definition vworld := (heap * list (option vbv))%type.
  (** commands of a user. [moved]: std::vector::resize allocates a new buffer. Allocation failures are not modelled *)
  Inductive vcmd :=
  | VNew                              (* VariableBlockVector(), :103-105 *)
  | VNewN (nb : nat)                  (* VariableBlockVector(numBlocks), :113-116 *)
  | VNewNB (nb bs : nat)              (* VariableBlockVector(numBlocks, blockSize), :126-140 *)
  | VCopy (k : nat)                   (* copy constructor, :143-159 *)
  | VMove (k : nat)                   (* move constructor, :162-166 *)
  | VAssign (k l : nat)               (* k = l, :172-176 *)
  | VMoveAssign (k l : nat)           (* k = std::move(l) *)
  | VSwap (k l : nat)                 (* swap, :179-188 *)
  | VResize (k nb : nat)              (* resize(numBlocks), :197-208 *)
  | VResizeB (k nb bs : nat) (moved : bool) (* resize(numBlocks, blockSize), :211-225 *)
  | VCreate (k : nat) (sizes : list nat) (moved : bool) (* it = createbegin(); for each size: it.setblocksize(size); ++it; destroy it (:301-420, allocate :510-530) *)
  | VFill (k : nat) (v : V)           (* operator=(scalar), :230-234 *)
  | VSet (k i j : nat) (v : V)        (* k[i][j] = v *)
  | VDestroy (k : nat).
  (** syncBaseArray, :533-537; [n] is storage_.size() *)
  Definition vsync (o : vbv) (n : nat) : vbv := mkvbv (v_buf o) (v_buf o) n (v_block o) (v_init o).
  Definition buffer (h : heap) (b : nat) : option (list V) := match nth_error h b with Some (Some l) => Some l | _ => None end.
  Definition vempty (h : heap) : heap * vbv := (h ++ [Some nil], mkvbv (length h) (length h) 0 nil false).
  (** the window loops: block[i].set(blockSize, p + i*blockSize) ... *)
  Definition regular (b nb bs : nat) : list win := map (fun i => mkwin b (i * bs) bs) (seq 0 nb).
  (** ... and block[0] at p, block[i].ptr = block[i-1].ptr + block[i-1].size *)
  Fixpoint chain (b off : nat) (ws : list win) : list win := match ws with nil => nil | w :: t => mkwin b off (w_size w) :: chain b (off + w_size w) t end.
  (** std::vector::resize of the windows: old windows are kept, new ones are empty *)
  Definition wresize (n : nat) (ws : list win) : list win := firstn n ws ++ repeat (mkwin 0 0 0) (n - length ws).
  Definition lresize (n : nat) (l : list V) : list V := firstn n l ++ repeat zv (n - length l).
  (** storage_.resize(n) *)
  Definition sresize (h : heap) (b n : nat) (moved : bool) : option (heap * nat) :=
    match buffer h b with
    | None => None
    | Some l => if moved then Some (upd h b None ++ [Some (lresize n l)], length h) else Some (upd h b (Some (lresize n l)), b)
    end.
  Definition vcopy (h : heap) (a : vbv) : option (heap * vbv) :=
    match buffer h (v_buf a) with
    | None => None
    | Some l => Some (h ++ [Some l], mkvbv (length h) (length h) (length l) (chain (length h) 0 (v_block a)) (v_init a))
    end.
  (** swap: exchange storage_, block, initialized; sync both *)
  Definition vswap (h : heap) (a b : vbv) : option (vbv * vbv) :=
    match buffer h (v_buf a), buffer h (v_buf b) with
    | Some la, Some lb => Some (mkvbv (v_buf b) (v_buf b) (length lb) (v_block b) (v_init b), mkvbv (v_buf a) (v_buf a) (length la) (v_block a) (v_init a))
    | _, _ => None
    end.
  Definition vfree (h : heap) (o : vbv) : option heap := match buffer h (v_buf o) with Some _ => Some (upd h (v_buf o) None) | None => None end.
  Fixpoint setsizes (ws : list win) (sizes : list nat) : option (list win) :=
    match sizes, ws with
    | nil, _ => Some ws
    | n :: ns, w :: t => option_map (cons (mkwin (w_buf w) (w_off w) n)) (setsizes t ns)
    | _ :: _, nil => None
    end.
  Definition sizes_of (ws : list win) : list nat := map w_size ws.
  (** allocate, :510-530; block[0] of an empty vector is UB *)
  Definition vallocate (h : heap) (o : vbv) (moved : bool) : option (heap * vbv) :=
    match sresize h (v_buf o) (list_sum (sizes_of (v_block o))) moved, v_block o with
    | Some (h', b), _ :: _ => Some (h', mkvbv b b (list_sum (sizes_of (v_block o))) (chain b 0 (v_block o)) true)
    | _, _ => None
    end.
  Notation "'need' x := e ; f" := (match e with Some x => f | None => RUB end) (at level 200, x pattern, right associativity).
  Definition vstep (w : vworld) (c : vcmd) : res vworld unit :=
    let '(h, objs) := w in
    match c with
    | VNew => let '(h', o) := vempty h in ROk (h', objs ++ [Some o]) tt
    | VNewN nb => let '(h', o) := vempty h in ROk (h', objs ++ [Some (mkvbv (v_buf o) (v_p o) (v_n o) (repeat (mkwin 0 0 0) nb) false)]) tt
    | VNewNB nb bs => ROk (h ++ [Some (repeat zv (nb * bs))], objs ++ [Some (mkvbv (length h) (length h) (nb * bs) (regular (length h) nb bs) true)]) tt
    | VCopy k => need a := nth k objs None; need (h', o) := vcopy h a; ROk (h', objs ++ [Some o]) tt
    | VMove k => need a := nth k objs None; let '(h', e) := vempty h in need (a', o) := vswap h' a e; ROk (h', upd objs k (Some a') ++ [Some o]) tt
    | VAssign k l => need a := nth l objs None; need (h1, t) := vcopy h a; need o := nth k objs None; need (t', o') := vswap h1 t o; need h2 := vfree h1 t'; ROk (h2, upd objs k (Some o')) tt
    | VMoveAssign k l => need a := nth l objs None; let '(h1, e) := vempty h in need (a', t) := vswap h1 a e;
        let objs1 := upd objs l (Some a') in need o := nth k objs1 None; need (t', o') := vswap h1 t o; need h2 := vfree h1 t'; ROk (h2, upd objs1 k (Some o')) tt
    | VSwap k l => need a := nth k objs None; need b := nth l objs None; if k =? l then ROk w tt else need (a', b') := vswap h a b; ROk (h, upd (upd objs k (Some a')) l (Some b')) tt
    | VResize k nb => need o := nth k objs None; need l := buffer h (v_buf o); ROk (upd h (v_buf o) (Some nil), upd objs k (Some (mkvbv (v_buf o) (v_buf o) 0 (wresize nb (v_block o)) false))) tt
    | VResizeB k nb bs moved => need o := nth k objs None; need (h', b) := sresize h (v_buf o) (nb * bs) moved; ROk (h', upd objs k (Some (mkvbv b b (nb * bs) (regular b nb bs) true))) tt
    | VCreate k sizes moved => need o := nth k objs None; need ws := setsizes (v_block o) sizes;
        let o1 := mkvbv (v_buf o) (v_p o) (v_n o) ws (v_init o) in
        if (length sizes =? length ws) && negb (v_init o) then need (h', o2) := vallocate h o1 moved; ROk (h', upd objs k (Some o2)) tt
        else ROk (h, upd objs k (Some o1)) tt
    | VFill k v => need o := nth k objs None; need l := buffer h (v_p o); if v_n o <=? length l then ROk (upd h (v_p o) (Some (repeat v (v_n o) ++ skipn (v_n o) l)), objs) tt else RUB
    | VSet k i j v => need o := nth k objs None; need wi := nth_error (v_block o) i; need l := buffer h (w_buf wi);
        if (j <? w_size wi) && (w_off wi + j <? length l) then ROk (upd h (w_buf wi) (Some (upd l (w_off wi + j) v)), objs) tt else RUB
    | VDestroy k => need o := nth k objs None; need h' := vfree h o; ROk (h', upd objs k None) tt
    end.
  (** observations: N(), the size of block i, k[i][j], the number of entries of the whole array (base class n) *)
  Definition vN (w : vworld) (k : nat) : option nat := option_map (fun o => length (v_block o)) (nth k (snd w) None).
  Definition vsize (w : vworld) (k i : nat) : option nat := match nth k (snd w) None with Some o => option_map w_size (nth_error (v_block o) i) | None => None end.
  Definition vread (w : vworld) (k i j : nat) : option V :=
    match nth k (snd w) None with
    | Some o => match nth_error (v_block o) i with
                | Some wi => if j <? w_size wi then match buffer (fst w) (w_buf wi) with Some l => nth_error l (w_off wi + j) | None => None end else None
                | None => None
                end
    | None => None
    end.
  Definition vdim (w : vworld) (k : nat) : option nat := option_map v_n (nth k (snd w) None).
  Fixpoint vrun (w : vworld) (cs : list vcmd) : res vworld unit := match cs with nil => ROk w tt | c :: t => match vstep w c with ROk w' _ => vrun w' t | r => r end end.

  (** ** Specification: a vector is a list of blocks, or, before its creation is complete, a list of block sizes *)
  Inductive sv := Blocks (bl : list (list V)) | Sizes (ns : list nat).
  (** cut a list into nb pieces of bs entries *)
  Fixpoint cut (nb bs : nat) (l : list V) : list (list V) := match nb with 0 => nil | S nb' => firstn bs l :: cut nb' bs (skipn bs l) end.
  Definition flat (s : sv) : list V := match s with Blocks bl => concat bl | Sizes _ => nil end.
  Definition ssizes (s : sv) : list nat := match s with Blocks bl => map (@length V) bl | Sizes ns => ns end.
  Definition nresize (n : nat) (ns : list nat) : list nat := firstn n ns ++ repeat 0 (n - length ns).
  Definition overwrite (new old : list nat) : list nat := new ++ skipn (length new) old.
  Definition vsstep (s : list (option sv)) (c : vcmd) : list (option sv) :=
    match c with
    | VNew => s ++ [Some (Sizes nil)]
    | VNewN nb => s ++ [Some (Sizes (repeat 0 nb))]
    | VNewNB nb bs => s ++ [Some (Blocks (repeat (repeat zv bs) nb))]
    | VCopy k => s ++ [nth k s None]
    | VMove k => upd s k (Some (Sizes nil)) ++ [nth k s None]
    | VAssign k l => upd s k (nth l s None)
    | VMoveAssign k l => if k =? l then s else upd (upd s k (nth l s None)) l (Some (Sizes nil))
    | VSwap k l => upd (upd s k (nth l s None)) l (nth k s None)
    | VResize k nb => match nth k s None with Some m => upd s k (Some (Sizes (nresize nb (ssizes m)))) | None => s end
    | VResizeB k nb bs _ => match nth k s None with Some m => upd s k (Some (Blocks (cut nb bs (lresize (nb * bs) (flat m))))) | None => s end
    | VCreate k new _ => match nth k s None with
                         | Some (Sizes ns) => upd s k (Some (if length new =? length ns then Blocks (map (repeat zv) new) else Sizes (overwrite new ns)))
                         | _ => s
                         end
    | VFill k v => match nth k s None with Some (Blocks bl) => upd s k (Some (Blocks (map (map (fun _ => v)) bl))) | _ => s end
    | VSet k i j v => match nth k s None with Some (Blocks bl) => upd s k (Some (Blocks (upd bl i (upd (nth i bl nil) j v)))) | _ => s end
    | VDestroy k => upd s k None
    end.
  (** what the caller has to respect: objects exist, indices in range, createbegin on a vector that is not initialised (as the checking build demands), and at least one block when creation is completed *)
  Definition vlegal (s : list (option sv)) (c : vcmd) : Prop :=
    match c with
    | VNew | VNewN _ | VNewNB _ _ => True
    | VCopy k | VMove k | VResize k _ | VResizeB k _ _ _ | VFill k _ | VDestroy k => nth k s None <> None
    | VAssign k l | VMoveAssign k l | VSwap k l => nth k s None <> None /\ nth l s None <> None
    | VCreate k new _ => match nth k s None with Some (Sizes ns) => length new <= length ns /\ 0 < length ns | _ => False end
    | VSet k i j _ => match nth k s None with Some (Blocks bl) => i < length bl /\ j < length (nth i bl nil) | _ => False end
    end.
  Fixpoint vlegals (s : list (option sv)) (cs : list vcmd) : Prop := match cs with nil => True | c :: t => vlegal s c /\ vlegals (vsstep s c) t end.
  Definition vsrun (s : list (option sv)) (cs : list vcmd) : list (option sv) := fold_left vsstep cs s.

  (** ** Proofs *)
  Fixpoint chunks (b off : nat) (ns : list nat) : list win := match ns with nil => nil | n :: t => mkwin b off n :: chunks b (off + n) t end.
  Lemma chain_chunks b ws : forall off, chain b off ws = chunks b off (sizes_of ws).
  Proof. induction ws as [|w t IH]; intros off; cbn; auto. now rewrite IH. Qed.
  Lemma sizes_chunks b ns : forall off, sizes_of (chunks b off ns) = ns.
  Proof. induction ns as [|w t IH]; intros off; cbn; auto. now rewrite IH. Qed.
  Lemma regular_chunks b nb bs : regular b nb bs = chunks b 0 (repeat bs nb).
  Proof.
    unfold regular. enough (forall k, map (fun i => mkwin b (i * bs) bs) (seq k nb) = chunks b (k * bs) (repeat bs nb)) by apply (H 0).
    induction nb as [|n IH]; intros k; cbn [seq map repeat chunks]; auto. rewrite IH. now replace (S k * bs) with (k * bs + bs) by lia.
  Qed.
  Lemma lresize_length n l : length (lresize n l) = n.
  Proof. unfold lresize. rewrite app_length, repeat_length. destruct (Nat.le_ge_cases n (length l)); [rewrite firstn_length_le; lia|rewrite firstn_all2; lia]. Qed.
  Lemma cut_ok bs nb : forall l, length l = nb * bs -> concat (cut nb bs l) = l /\ map (@length V) (cut nb bs l) = repeat bs nb.
  Proof.
    induction nb as [|n IH]; intros l H; cbn [cut concat map repeat].
    - destruct l; cbn in *; auto; lia.
    - cbn in H. destruct (IH (skipn bs l)) as [A B]; [rewrite skipn_length; lia|]. rewrite A, B, firstn_skipn, firstn_length_le by lia. auto.
  Qed.
  Lemma length_concat (bl : list (list V)) : length (concat bl) = list_sum (map (@length V) bl).
  Proof. induction bl as [|x t IH]; cbn; auto. rewrite app_length, IH. auto. Qed.
  Lemma sizes_wresize n ws : sizes_of (wresize n ws) = nresize n (sizes_of ws).
  Proof.
    unfold wresize, nresize, sizes_of. rewrite map_app, map_length, firstn_map. f_equal. induction (n - length ws); cbn; auto. now f_equal.
  Qed.
  Lemma setsizes_ok sizes : forall ws, length sizes <= length ws -> exists ws', setsizes ws sizes = Some ws' /\ sizes_of ws' = overwrite sizes (sizes_of ws).
  Proof.
    induction sizes as [|n t IH]; intros ws H.
    - exists ws. split; [destruct ws; auto|]. unfold overwrite. cbn. auto.
    - destruct ws as [|w ws]; cbn in H; [lia|]. destruct (IH ws) as (ws' & A & B); [lia|]. cbn [setsizes]. rewrite A. eexists. split; [reflexivity|]. unfold sizes_of in *. cbn [map w_size]. rewrite B. reflexivity.
  Qed.
  Lemma repeat_all n (v : V) : forall bl : list (list V), length (concat bl) = n -> concat (map (map (fun _ => v)) bl) = repeat v n.
  Proof. intros bl <-. rewrite <- concat_map. induction (concat bl); cbn; auto. now f_equal. Qed.
  Lemma concat_repeats ns : concat (map (repeat zv) ns) = repeat zv (list_sum ns).
  Proof. induction ns as [|n t IH]; cbn; auto. now rewrite IH, repeat_app. Qed.
  Lemma lengths_repeats ns : map (@length V) (map (repeat zv) ns) = ns.
  Proof. induction ns as [|n t IH]; cbn; auto. now rewrite IH, repeat_length. Qed.

  Definition orel (h : heap) (o : vbv) (m : sv) : Prop :=
    v_p o = v_buf o /\ nth_error h (v_buf o) = Some (Some (flat m)) /\ v_n o = length (flat m) /\
    sizes_of (v_block o) = ssizes m /\
    match m with Blocks bl => v_init o = true /\ v_block o = chunks (v_buf o) 0 (map (@length V) bl) | Sizes _ => v_init o = false end.
  Lemma orel_eq h h' o m : nth_error h' (v_buf o) = nth_error h (v_buf o) -> orel h o m -> orel h' o m.
  Proof. unfold orel. intros ->. auto. Qed.
  Lemma orel_live h o m : orel h o m -> exists l, nth_error h (v_buf o) = Some (Some l).
  Proof. intros (_ & -> & _). eauto. Qed.
  Lemma orel_buffer h o m : orel h o m -> buffer h (v_buf o) = Some (flat m).
  Proof. intros (_ & E & _). unfold buffer. now rewrite E. Qed.
  Lemma orel_vcopy h o m : orel h o m -> exists o', vcopy h o = Some (h ++ [Some (flat m)], o') /\ v_buf o' = length h /\ orel (h ++ [Some (flat m)]) o' m.
  Proof.
    intros H. unfold vcopy. rewrite (orel_buffer _ _ _ H). eexists. split; [reflexivity|]. split; [reflexivity|]. destruct H as (P & B & N & Z & M).
    repeat split; cbn [v_p v_buf v_n v_block v_init].
    - apply nth_error_new.
    - rewrite chain_chunks, sizes_chunks. auto.
    - destruct m; [|auto]. destruct M as [M1 M2]. split; auto. rewrite chain_chunks, Z. reflexivity.
  Qed.
  Definition vnormal (o : vbv) (n : nat) : vbv := mkvbv (v_buf o) (v_buf o) n (v_block o) (v_init o).
  Lemma orel_vswap h a b ma mb : orel h a ma -> orel h b mb -> vswap h a b = Some (b, a).
  Proof.
    intros Ha Hb. unfold vswap. rewrite (orel_buffer _ _ _ Ha), (orel_buffer _ _ _ Hb). destruct Ha as (P & B & N & _), Hb as (P' & B' & N' & _).
    destruct a, b; cbn in *; subst; auto.
  Qed.
  Lemma orel_vempty h : orel (fst (vempty h)) (snd (vempty h)) (Sizes nil).
  Proof. repeat split; cbn. apply nth_error_new. Qed.

  Lemma chunks_nth b ns : forall off i, i < length ns -> nth_error (chunks b off ns) i = Some (mkwin b (off + list_sum (firstn i ns)) (nth i ns 0)).
  Proof.
    induction ns as [|n t IH]; intros off [|i] H; cbn in H; try lia; cbn [chunks nth_error firstn nth]; [do 2 f_equal; cbn; lia|]. rewrite IH by lia. f_equal. f_equal. unfold list_sum. cbn [fold_right]. lia.
  Qed.
  Lemma concat_nth (bl : list (list V)) : forall i j, i < length bl -> j < length (nth i bl nil) -> nth_error (concat bl) (list_sum (firstn i (map (@length V) bl)) + j) = nth_error (nth i bl nil) j.
  Proof.
    induction bl as [|b t IH]; intros [|i] j Hi Hj; cbn in Hi; try lia; cbn [map firstn list_sum fold_right nth concat] in *.
    - cbn. now apply nth_error_app1.
    - rewrite nth_error_app2 by (cbn; lia). rewrite <- IH by (auto; lia). f_equal. unfold list_sum. cbn. lia.
  Qed.
  Lemma upd_concat (bl : list (list V)) : forall i j v, i < length bl -> j < length (nth i bl nil) -> concat (upd bl i (upd (nth i bl nil) j v)) = upd (concat bl) (list_sum (firstn i (map (@length V) bl)) + j) v.
  Proof.
    induction bl as [|b t IH]; intros [|i] j v Hi Hj; cbn in Hi; try lia; cbn [map firstn list_sum fold_right nth concat upd] in *.
    - cbn. clear IH. revert j Hj. induction b as [|x b IHb]; intros [|j] Hj; cbn in *; try lia; auto. rewrite IHb by lia. auto.
    - rewrite IH by (auto; lia). clear IH. change (fold_right plus 0 (firstn i (map (@length V) t))) with (list_sum (firstn i (map (@length V) t))).
      replace (length b + list_sum (firstn i (map (length (A:=V)) t)) + j) with (length b + (list_sum (firstn i (map (length (A:=V)) t)) + j)) by lia.
      generalize (list_sum (firstn i (map (@length V) t)) + j). clear. induction b as [|x b IHb]; intros n; cbn; auto. now rewrite IHb.
  Qed.
  Lemma upd_lengths (bl : list (list V)) : forall i j v, map (@length V) (upd bl i (upd (nth i bl nil) j v)) = map (@length V) bl.
  Proof. induction bl as [|b t IH]; intros [|i] j v; cbn; auto; [now rewrite upd_length|now rewrite IH]. Qed.
  Notation wrel := (orels v_buf orel).
  Lemma off_lt (bl : list (list V)) i j : i < length bl -> j < length (nth i bl nil) -> list_sum (firstn i (map (@length V) bl)) + j < length (concat bl).
  Proof. intros Hi Hj. apply nth_error_Some. rewrite concat_nth by auto. apply nth_error_Some. auto. Qed.
  Lemma nth_lengths (bl : list (list V)) i : nth i (map (@length V) bl) 0 = length (nth i bl nil).
  Proof. change 0 with (length (@nil V)). apply map_nth. Qed.
  Lemma nth_error_old {A} (h : list A) x b : b < length h -> nth_error (h ++ [x]) b = nth_error h b.
  Proof. apply nth_error_app1. Qed.
  (** how a new buffer and a freed buffer leave the others alone *)
  Lemma step_ok w s c : wrel w s -> vlegal s c -> exists w', vstep w c = ROk w' tt /\ wrel w' (vsstep s c).
  Proof.
    intros W LG. destruct w as [h objs]. assert (LIVE : forall l o, nth l objs None = Some o -> v_buf o < length h) by (intros l o H; destruct (orels_live _ _ orel_live h objs s l o W H) as (_ & _ & X); exact X).
    assert (UNIQ : forall k l o o', nth k objs None = Some o -> nth l objs None = Some o' -> v_buf o = v_buf o' -> k = l) by (destruct W as (_ & _ & U); exact U).
    assert (GET : forall k, nth k s None <> None -> k < length s /\ exists o m, nth k objs None = Some o /\ nth k s None = Some m /\ orel h o m) by (intros k; apply (orels_alive _ _ h objs s k W)).
    assert (OEM : orel (h ++ [Some nil]) (mkvbv (length h) (length h) 0 [] false) (Sizes nil)) by apply (orel_vempty h).
    destruct c as [ |nb|nb bs|k|k|k k'|k k'|k k'|k nb|k nb bs moved|k new moved|k v|k i j v|k]; cbn [vstep vsstep vlegal vempty] in *.
    - eexists. split; [reflexivity|]. apply (orels_app _ _ orel_eq h); auto.
      + intros l o H. apply nth_error_old. eauto.
      + intros l o H. cbn. specialize (LIVE l o H). lia.
    - eexists. split; [reflexivity|]. apply (orels_app _ _ orel_eq h); auto.
      + intros l o H. apply nth_error_old. eauto.
      + repeat split; cbn; [apply nth_error_new|]. unfold sizes_of. induction nb; cbn; auto. now f_equal.
      + intros l o H. cbn. specialize (LIVE l o H). lia.
    - eexists. split; [reflexivity|]. apply (orels_app _ _ orel_eq h); auto.
      + intros l o H. apply nth_error_old. eauto.
      + assert (E1 : concat (repeat (repeat zv bs) nb) = repeat zv (nb * bs)) by (induction nb; cbn; auto; now rewrite IHnb, repeat_app).
        assert (E2 : map (@length V) (repeat (repeat zv bs) nb) = repeat bs nb) by (clear; induction nb; cbn; auto; now rewrite IHnb, repeat_length).
        unfold orel. cbn [v_p v_buf v_n v_block v_init flat ssizes]. rewrite E1, E2, repeat_length, regular_chunks, sizes_chunks. repeat split; auto. apply nth_error_new.
      + intros l o H. cbn. specialize (LIVE l o H). lia.
    - destruct (GET k LG) as (HK & o & m & EO & EM & OR). rewrite EO, EM. destruct (orel_vcopy _ _ _ OR) as (o' & EC & BO & OR'). rewrite EC. eexists. split; [reflexivity|]. apply (orels_app _ _ orel_eq h); auto.
      + intros l o1 H. apply nth_error_old. eauto.
      + intros l o1 H. rewrite BO. specialize (LIVE l o1 H). lia.
    - destruct (GET k LG) as (HK & o & m & EO & EM & OR). rewrite EO, EM.
      assert (OR1 : orel (h ++ [Some nil]) o m) by (apply (orel_eq h); auto; apply nth_error_old; eauto).
      rewrite (orel_vswap _ _ _ _ _ OR1 OEM). eexists. split; [reflexivity|]. destruct W as (L & R & U).
      set (e := mkvbv (length h) (length h) 0 [] false).
      assert (W1 : wrel (h ++ [Some nil], upd objs k None) (upd s k None)).
      { apply (orels_upd _ _ orel_eq h); auto; [repeat split; auto|intros l o1 _ H; apply nth_error_old; eauto|discriminate]. }
      assert (W2 : wrel (h ++ [Some nil], upd objs k None ++ [Some o]) (upd s k None ++ [Some m])).
      { apply (orels_app _ _ orel_eq (h ++ [Some nil])); auto. intros l o1 H B. rewrite nth_upd in H. destruct (Nat.eqb_spec k l) as [Q|NE]; [destruct (_ <? length objs) in H; discriminate H|]. apply NE. symmetry. apply (U l k o1 o); auto. }
      replace (upd objs k (Some e) ++ [Some o]) with (upd (upd objs k None ++ [Some o]) k (Some e)).
      2:{ clear - HK L. rewrite <- L in HK. clear L. revert k HK. induction objs as [|x t IH]; intros [|k] HK; cbn in *; try lia; auto. rewrite IH by lia. auto. }
      replace (upd s k (Some (Sizes [])) ++ [Some m]) with (upd (upd s k None ++ [Some m]) k (Some (Sizes []))).
      2:{ clear - HK. revert k HK. induction s as [|x t IH]; intros [|k] HK; cbn in *; try lia; auto. rewrite IH by lia. auto. }
      apply (orels_upd _ _ orel_eq (h ++ [Some nil])); auto.
      + rewrite app_length, upd_length. lia.
      + intros l o1 o2 NE H [= <-]. cbn. destruct (Nat.lt_ge_cases l (S (length objs))) as [HL|HL]; [|rewrite nth_overflow in H by (rewrite app_length, upd_length; cbn; lia); discriminate].
        rewrite nth_app_last in H by (rewrite upd_length; auto). rewrite upd_length in H. destruct (l =? length objs); [injection H as <-; specialize (LIVE k o EO); lia|]. rewrite nth_upd in H. destruct (Nat.eqb_spec k l); [congruence|]. specialize (LIVE l o1 H). lia.
    - destruct LG as [LG LG']. destruct (GET k LG) as (HK & o & m & EO & EM & OR). destruct (GET k' LG') as (HK' & a & ma & EA & EMA & OA). rewrite EA, EMA. destruct (orel_vcopy _ _ _ OA) as (t & EC & BO & OT). rewrite EC, EO.
      set (h1 := h ++ [Some (flat ma)]) in *. assert (OR1 : orel h1 o m) by (apply (orel_eq h); auto; apply nth_error_old; eauto). rewrite (orel_vswap _ _ _ _ _ OT OR1). unfold vfree. rewrite (orel_buffer _ _ _ OR1). eexists. split; [reflexivity|].
      apply (orels_upd _ _ orel_eq h); auto.
      + intros l o1 NE H. rewrite nth_error_upd_ne; [apply nth_error_old; eauto|]. intros B. apply NE. apply (UNIQ l k o1 o); auto.
      + apply (orel_eq h1); auto. apply nth_error_upd_ne. rewrite BO. specialize (LIVE k o EO). lia.
      + intros l o1 o2 NE H [= <-]. rewrite BO. specialize (LIVE l o1 H). lia.
    - destruct LG as [LG LG']. destruct (GET k LG) as (HK & o & m & EO & EM & OR). destruct (GET k' LG') as (HK' & a & ma & EA & EMA & OA). rewrite EA.
      set (h1 := h ++ [Some nil]) in *. assert (OA1 : orel h1 a ma) by (apply (orel_eq h); auto; apply nth_error_old; eauto). assert (OR1 : orel h1 o m) by (apply (orel_eq h); auto; apply nth_error_old; eauto).
      rewrite (orel_vswap _ _ _ _ _ OA1 OEM). set (e := mkvbv (length h) (length h) 0 [] false) in *. rewrite nth_upd. assert (L : length objs = length s) by (destruct W; auto). rewrite L.
      assert (OE : orel h1 e (Sizes nil)) by apply (orel_vempty h).
      destruct (Nat.eqb_spec k' k) as [Q|NE].
      + subst k'. rewrite Nat.eqb_refl. destruct (Nat.ltb_spec k (length s)); [|lia]. rewrite (orel_vswap _ _ _ _ _ OA1 OE). unfold vfree. rewrite (orel_buffer _ _ _ OE). eexists. split; [reflexivity|].
        assert (UU : forall A (l : list A) q x y, upd (upd l q x) q y = upd l q y) by (clear; induction l as [|z t IH]; intros [|q] x y; cbn; auto; now rewrite IH).
        rewrite UU, <- (upd_nth_same s k None) , EMA. apply (orels_upd _ _ orel_eq h); auto.
        * intros l o1 NE H1. rewrite nth_error_upd_ne; [apply nth_error_old; eauto|]. cbn. specialize (LIVE l o1 H1). lia.
        * apply (orel_eq h1); auto. apply nth_error_upd_ne. cbn. specialize (LIVE k a EA). lia.
        * intros l o1 o2 NE H1 [= <-] B. apply NE. apply (UNIQ l k o1 a); auto.
      + destruct (Nat.eqb_spec k k'); [congruence|]. rewrite EO. rewrite (orel_vswap _ _ _ _ _ OA1 OR1). unfold vfree. rewrite (orel_buffer _ _ _ OR1). eexists. split; [reflexivity|].
        assert (UC : forall A (l : list A) p q x y, p <> q -> upd (upd l p x) q y = upd (upd l q y) p x) by (clear; induction l as [|z t IH]; intros [|p] [|q] x y N; cbn; auto; try congruence; now rewrite IH by congruence).
        rewrite EMA.
        assert (W1 : wrel (h1, upd objs k' (Some e)) (upd s k' (Some (Sizes nil)))).
        { apply (orels_upd _ _ orel_eq h); auto; [intros l o1 _ H; apply nth_error_old; eauto|]. intros l o1 o2 N H [= <-]. cbn. specialize (LIVE l o1 H). lia. }
        rewrite (UC _ s k k') by auto. apply (orels_upd _ _ orel_eq h1); auto.
        * rewrite upd_length; auto.
        * intros l o1 N H. apply nth_error_upd_ne. rewrite nth_upd in H. destruct (Nat.eqb_spec k' l) as [Q|N2]; [destruct (_ <? length objs) in H; [injection H as <-|discriminate]; cbn; specialize (LIVE k o EO); lia|]. intros B. apply N. apply (UNIQ l k o1 o); auto.
        * apply (orel_eq h1); auto. apply nth_error_upd_ne. intros B. apply NE. apply (UNIQ k' k a o); auto.
        * intros l o1 o2 N H [= <-] B. rewrite nth_upd in H. destruct (Nat.eqb_spec k' l) as [Q|N2]; [destruct (_ <? length objs) in H; [injection H as <-|discriminate]; cbn in B; specialize (LIVE k' a EA); lia|]. apply N2. apply (UNIQ k' l a o1); auto.
    - destruct LG as [LG LG']. destruct (GET k LG) as (HK & o & m & EO & EM & OR). destruct (GET k' LG') as (HK' & a & ma & EA & EMA & OA). rewrite EO, EA. destruct (Nat.eqb_spec k k') as [Q|NE].
      + subst k'. eexists. split; [reflexivity|]. rewrite (upd_nth_same s k None), upd_nth_same. auto.
      + rewrite (orel_vswap _ _ _ _ _ OR OA). eexists. split; [reflexivity|]. rewrite <- EO, <- EA. apply (orels_swap _ _ h); auto.
    - destruct (GET k LG) as (HK & o & m & EO & EM & OR). rewrite EO, EM, (orel_buffer _ _ _ OR). eexists. split; [reflexivity|]. destruct OR as (P & B & N & Z & M). apply (orels_upd _ _ orel_eq h); auto.
      + intros l o1 NE H. apply nth_error_upd_ne. intros Q. apply NE. apply (UNIQ l k o1 o); auto.
      + repeat split; cbn [v_p v_buf v_n v_block v_init flat ssizes]. * apply (nth_error_upd_eq h _ _ _ B). * rewrite sizes_wresize, Z. auto.
      + intros l o1 o2 NE H [= <-] Q. apply NE. apply (UNIQ l k o1 o); auto.
    - destruct (GET k LG) as (HK & o & m & EO & EM & OR). rewrite EO, EM. unfold sresize. rewrite (orel_buffer _ _ _ OR). destruct OR as (P & B & N & Z & M). destruct (cut_ok bs nb (lresize (nb * bs) (flat m)) (lresize_length _ _)) as [C1 C2].
      destruct moved; (eexists; split; [reflexivity|]); apply (orels_upd _ _ orel_eq h); auto.
      + intros l o1 NE H. rewrite nth_error_app1 by (rewrite upd_length; eauto). apply nth_error_upd_ne. intros Q. apply NE. apply (UNIQ l k o1 o); auto.
      + unfold orel. cbn [v_p v_buf v_n v_block v_init flat ssizes]. rewrite C1, C2, regular_chunks, sizes_chunks, lresize_length. repeat split; auto. rewrite <- (upd_length h (v_buf o) None). apply nth_error_new.
      + intros l o1 o2 NE H [= <-] Q. cbn in Q. specialize (LIVE l o1 H). lia.
      + intros l o1 NE H. apply nth_error_upd_ne. intros Q. apply NE. apply (UNIQ l k o1 o); auto.
      + unfold orel. cbn [v_p v_buf v_n v_block v_init flat ssizes]. rewrite C1, C2, regular_chunks, sizes_chunks, lresize_length. repeat split; auto. apply (nth_error_upd_eq h _ _ _ B).
      + intros l o1 o2 NE H [= <-] Q. apply NE. apply (UNIQ l k o1 o); auto.
    - destruct (nth k s None) as [[bl|ns]|] eqn:EM; try contradiction. destruct LG as [L1 L2]. destruct (GET k) as (HK & o & m & EO & EM' & OR); [rewrite EM; discriminate|]. rewrite EM in EM'. injection EM' as <-. rewrite EO. destruct OR as (P & B & N & Z & M). cbn [flat ssizes length] in *.
      assert (LW : length (v_block o) = length ns) by (rewrite <- Z; symmetry; apply map_length).
      destruct (setsizes_ok new (v_block o)) as (ws & ES & ZS); [lia|]. rewrite ES. assert (LWS : length ws = length ns) by (transitivity (length (sizes_of ws)); [symmetry; apply map_length|rewrite ZS; unfold overwrite; rewrite app_length, skipn_length, Z; lia]).
      rewrite LWS, M. destruct (Nat.eqb_spec (length new) (length ns)) as [Q|Q]; cbn [negb andb].
      + assert (ZS' : sizes_of ws = new). { rewrite ZS. unfold overwrite. rewrite skipn_all2 by (rewrite Z; lia). apply app_nil_r. }
        unfold vallocate, sresize. cbn [v_buf v_block]. unfold buffer. rewrite B, ZS'. assert (LR : forall n, lresize n [] = repeat zv n) by (intros n; unfold lresize; rewrite firstn_nil; cbn; now rewrite Nat.sub_0_r). rewrite LR.
        assert (NN : exists w0 t0, ws = w0 :: t0) by (destruct ws; cbn in *; [lia|eauto]). destruct NN as (w0 & t0 & EW).
        destruct moved; cbv beta iota; rewrite chain_chunks, ZS', EW; (eexists; split; [reflexivity|]);
          apply (orels_upd _ _ orel_eq h); auto.
        * intros l o1 NE H. rewrite nth_error_app1 by (rewrite upd_length; eauto). apply nth_error_upd_ne. intros Q1. apply NE. apply (UNIQ l k o1 o); auto.
        * unfold orel. cbn [v_p v_buf v_n v_block v_init flat ssizes]. rewrite concat_repeats, lengths_repeats, sizes_chunks, repeat_length. repeat split; auto. rewrite <- (upd_length h (v_buf o) None). apply nth_error_new.
        * intros l o1 o2 NE H [= <-] Q1. cbn in Q1. specialize (LIVE l o1 H). lia.
        * intros l o1 NE H. apply nth_error_upd_ne. intros Q1. apply NE. apply (UNIQ l k o1 o); auto.
        * unfold orel. cbn [v_p v_buf v_n v_block v_init flat ssizes]. rewrite concat_repeats, lengths_repeats, sizes_chunks, repeat_length. repeat split; auto. apply (nth_error_upd_eq h _ _ _ B).
        * intros l o1 o2 NE H [= <-] Q1. apply NE. apply (UNIQ l k o1 o); auto.
      + eexists. split; [reflexivity|]. apply (orels_upd _ _ orel_eq h); auto.
        * unfold orel. cbn [v_p v_buf v_n v_block v_init flat ssizes]. rewrite ZS, Z. repeat split; auto.
        * intros l o1 o2 NE H [= <-] Q1. apply NE. apply (UNIQ l k o1 o); auto.
    - destruct (GET k LG) as (HK & o & m & EO & EM & OR). rewrite EO, EM. destruct OR as (P & B & N & Z & M). rewrite P. unfold buffer. rewrite B, N, Nat.leb_refl, skipn_all, app_nil_r. eexists. split; [reflexivity|].
      assert (RE : wrel (upd h (v_buf o) (Some (repeat v (length (flat m)))), upd objs k (Some o)) (upd s k (Some (match m with Blocks bl => Blocks (map (map (fun _ => v)) bl) | Sizes ns => Sizes ns end)))).
      { apply (orels_upd _ _ orel_eq h); auto.
        - intros l o1 NE H. apply nth_error_upd_ne. intros Q1. apply NE. apply (UNIQ l k o1 o); auto.
        - unfold orel. rewrite (nth_error_upd_eq h _ _ _ B). destruct m as [bl|ns]; cbn [flat ssizes] in *; [|auto]. rewrite (repeat_all _ v bl eq_refl), repeat_length.
          assert (ML : map (length (A:=V)) (map (map (fun _ : V => v)) bl) = map (@length V) bl) by (rewrite map_map; apply map_ext; intros a; apply map_length). rewrite ML. auto.
        - intros l o1 o2 NE H [= <-] Q1. apply NE. apply (UNIQ l k o1 o); auto. }
      rewrite <- EO, (upd_nth_same objs k None) in RE. destruct m as [bl|ns]; auto. rewrite <- EM, (upd_nth_same s k None) in RE. auto.
    - destruct (nth k s None) as [[bl|ns]|] eqn:EM; try contradiction. destruct LG as [L1 L2]. destruct (GET k) as (HK & o & m & EO & EM' & OR); [rewrite EM; discriminate|]. rewrite EM in EM'. injection EM' as <-. rewrite EO. destruct OR as (P & B & N & Z & M1 & M2). cbn [flat ssizes] in *.
      rewrite M2, chunks_nth by (rewrite map_length; auto). cbn [w_buf w_off w_size]. unfold buffer. rewrite B, nth_lengths. pose proof (off_lt bl i j L1 L2) as OL.
      destruct (Nat.ltb_spec j (length (nth i bl []))); [|lia]. destruct (Nat.ltb_spec (0 + list_sum (firstn i (map (length (A:=V)) bl)) + j) (length (concat bl))); [|lia]. cbn [andb]. eexists. split; [reflexivity|].
      rewrite <- (upd_nth_same objs k None), EO. apply (orels_upd _ _ orel_eq h); auto.
      + intros l o1 NE H1. apply nth_error_upd_ne. intros Q1. apply NE. apply (UNIQ l k o1 o); auto.
      + unfold orel. cbn [flat ssizes]. rewrite upd_lengths, upd_concat, upd_length by auto. repeat split; auto. apply (nth_error_upd_eq h _ _ _ B).
      + intros l o1 o2 NE H1 [= <-] Q1. apply NE. apply (UNIQ l k o1 o); auto.
    - destruct (GET k LG) as (HK & o & m & EO & EM & OR). rewrite EO. unfold vfree. rewrite (orel_buffer _ _ _ OR). eexists. split; [reflexivity|]. apply (orels_upd _ _ orel_eq h); auto.
      + intros l o1 NE H1. apply nth_error_upd_ne. intros Q1. apply NE. apply (UNIQ l k o1 o); auto.
      + discriminate.
  Qed.

  (** the whole array p[0..n) of the base class, on which the vector arithmetic works (basearray/bvector block_vector_unmanaged) *)
  Definition vwhole (w : vworld) (k : nat) : option (list V) := match nth k (snd w) None with Some o => match buffer (fst w) (v_p o) with Some l => if v_n o <=? length l then Some (firstn (v_n o) l) else None | None => None end | None => None end.
  (** C39: for every legal history of constructions, copies, moves, assignments, swaps, resizes, block-wise creations, writes and destructions,
      nothing undefined happens and every vector has the blocks of the specification; its whole array is the concatenation of its blocks *)
  Theorem C39_history cs : vlegals nil cs -> exists w, vrun (nil, nil) cs = ROk w tt /\
    forall k, match nth k (vsrun nil cs) None with
              | Some (Blocks bl) => vN w k = Some (length bl) /\ vwhole w k = Some (concat bl) /\
                  (forall i, i < length bl -> vsize w k i = Some (length (nth i bl nil))) /\ (forall i j, i < length bl -> vread w k i j = nth_error (nth i bl nil) j)
              | Some (Sizes ns) => vN w k = Some (length ns) /\ vwhole w k = Some nil /\ (forall i, i < length ns -> vsize w k i = Some (nth i ns 0))
              | None => vN w k = None
              end.
  Proof.
    assert (G : forall cs w s, wrel w s -> vlegals s cs -> exists w', vrun w cs = ROk w' tt /\ wrel w' (vsrun s cs)).
    { induction cs0 as [|c t IH]; intros w s W LG; cbn [vrun vsrun fold_left vlegals] in *; [eauto|]. destruct LG as [L1 L2]. destruct (step_ok w s c W L1) as (w' & E & W'). rewrite E. apply IH; auto. }
    intros LG. destruct (G cs (nil, nil) nil) as (w & E & W); auto.
    { split; auto. split; [cbn; lia|]. intros [|k] l o o' H; cbn in H; discriminate. }
    exists w. split; auto. intros k. destruct w as [h objs]. destruct W as (L & R & U). unfold vN, vwhole, vsize, vread. cbn [fst snd]. destruct (Nat.lt_ge_cases k (length (vsrun nil cs))) as [HK|HK].
    - specialize (R k HK). destruct (nth k (vsrun nil cs) None) as [m|], (nth k objs None) as [o|]; try contradiction; auto.
      assert (OB := orel_buffer _ _ _ R). destruct R as (P & B & N & Z & M). assert (LB : length (v_block o) = length (ssizes m)) by (rewrite <- Z; symmetry; apply map_length).
      assert (VS : forall i, i < length (ssizes m) -> option_map w_size (nth_error (v_block o) i) = Some (nth i (ssizes m) 0)).
      { intros i Hi. rewrite <- nth_error_map. change (map w_size (v_block o)) with (sizes_of (v_block o)). rewrite Z. apply nth_error_nth'. auto. }
      cbn [option_map]. rewrite P, OB, N, Nat.leb_refl, firstn_all, LB. destruct m as [bl|ns]; cbn [ssizes flat] in *.
      + rewrite map_length in *. split; auto. split; auto. split; [intros i Hi; rewrite VS by auto; f_equal; apply nth_lengths|]. destruct M as [M1 M2]. intros i j Hi. rewrite M2, chunks_nth by (rewrite map_length; auto). cbn [w_buf w_off w_size]. rewrite nth_lengths.
        destruct (Nat.ltb_spec j (length (nth i bl []))) as [Hj|Hj]; [|symmetry; apply nth_error_None; auto]. rewrite OB. apply concat_nth; auto.
      + auto.
    - rewrite (nth_overflow (vsrun nil cs)) by auto. rewrite nth_overflow by lia. auto.
  Qed.
End VBV.
Example C39_history_nonvacuous : let cs := [VNewN 3; VCreate 0 [2; 0] false; VCreate 0 [2; 0; 1] true; VFill 0 7; VSet 0 2 0 5; VCopy 0; VSet 0 0 1 9; VResizeB 0 2 2 true; VMove 1; VSwap 0 2; VNewNB 1 1; VAssign 3 0; VMoveAssign 1 3; VResize 0 4; VDestroy 2] in
  vlegals 0 nil cs /\ vsrun 0 nil cs = [Some (Sizes [2; 0; 1; 0]); Some (Blocks [[7; 7]; []; [5]]); None; Some (Sizes [])] /\
  match vrun 0 (nil, nil) cs with ROk w _ => (vread w 1 2 0, vwhole w 1, vN w 0, vsize w 0 2) | _ => (None, None, None, None) end = (Some 5, Some [7; 7; 5], Some 4, Some 1).
Proof. split; [cbn; repeat split; try discriminate; try lia|split; reflexivity]. Qed.
(** Deviations. A vector with no blocks cannot be created block by block: completing the creation accesses block[0] of an empty array. *)
Theorem C39_zero_blocks_refuted : forall V (zv : V) moved, vrun zv (nil, nil) [VNewN 0; VCreate 0 nil moved] = RUB.
Proof. intros V zv [|]; reflexivity. Qed.
(** resize(n) is documented to have the same effect as constructing anew, but the block sizes that are not set again keep their old values instead of 0 *)
Theorem C39_resize_keeps_sizes_refuted : forall V (zv : V), exists w w', vrun zv (nil, nil) [VNewNB 2 3; VResize 0 2] = ROk w tt /\ vrun zv (nil, nil) [VNewN 2] = ROk w' tt /\ vsize w 0 0 = Some 3 /\ vsize w' 0 0 = Some 0.
Proof. intros V zv. do 2 eexists. repeat split; reflexivity. Qed.
Print Assumptions C39_history.
Print Assumptions C39_zero_blocks_refuted.
