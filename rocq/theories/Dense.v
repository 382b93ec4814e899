(** * Dune::Matrix (C38): dune/istl/matrix.hh *)
From Coq Require Import Arith List Lia Bool.
From Verif Require Import Ring Sums RingInst Outcome Sparse MatVec.
Import ListNotations.
Open Scope nat_scope.

(** ** Storage and object histories *)
Section Storage.
  Context {V : Type}.
  (** DenseMatrixBase: base class members n and p, rows_, columns_ (matrix.hh:549-553); Matrix: cols_ (matrix.hh:1073-1086). A null pointer is None; freed buffers are None in memory. *)
  Record dobj := mkdobj { o_n : nat; o_p : option nat; o_rows : nat; o_columns : nat; o_cols : nat }.
  Definition dmem := list (option (list V)).
  Definition dworld := (dmem * list (option dobj))%type.
  (** the commands of a user; [fail]: the allocation in this call throws; [junk]: the content of freshly allocated storage *)
  Inductive dcmd :=
  | DNew (rows cols : nat) (junk : nat -> V) (fail : bool)
  | DSetSize (k rows cols : nat) (junk : nat -> V) (fail : bool)
  | DCopy (k : nat) (fail : bool)
  | DAssign (k l : nat) (fail : bool)
  | DFill (k : nat) (v : V)
  | DSet (k i j : nat) (v : V)
  | DDestroy (k : nat).
  Definition junklist (n : nat) (junk : nat -> V) : list V := map junk (seq 0 n).
  (** allocate if n>0: new memory and pointer *)
  Definition dalloc (h : dmem) (n : nat) (l : list V) (fail : bool) : outcome (dmem * option nat) :=
    if n =? 0 then Ok (h, None) else if fail then Throw EAlloc else Ok (h ++ [Some l], Some (length h)).
  (** destroy the elements and deallocate if n>0 (matrix.hh:137-145 and elsewhere); a dangling pointer is UB *)
  Definition dfree (h : dmem) (n : nat) (p : option nat) : option dmem :=
    if n =? 0 then Some h else match p with Some b => match nth_error h b with Some (Some l) => Some (upd h b None) | _ => None end | None => None end.
  Definition getobj (objs : list (option dobj)) (k : nat) : option dobj := nth k objs None.
  Definition content (h : dmem) (o : dobj) : option (list V) :=
    if o_n o =? 0 then Some nil else match o_p o with Some b => match nth_error h b with Some (Some l) => Some l | _ => None end | None => None end.
  (** [res]: final world and, for exceptions, the world the exception leaves behind *)
  Definition dstep (w : dworld) (c : dcmd) : res dworld unit :=
    let '(h, objs) := w in
    match c with
    | DNew rows cols junk fail =>            (* matrix.hh:94-113, :593-594 *)
        match dalloc h (rows * cols) (junklist (rows * cols) junk) fail with
        | Ok (h', p) => ROk (h', objs ++ [Some (mkdobj (rows * cols) p rows cols cols)]) tt
        | _ => RThrow w EAlloc
        end
    | DSetSize k rows cols junk fail =>      (* matrix.hh:148-175, :600-603: free, set n, allocate, set rows_, columns_ *)
        match getobj objs k with
        | None => RUB
        | Some o => match dfree h (o_n o) (o_p o) with
                    | None => RUB
                    | Some h1 => match dalloc h1 (rows * cols) (junklist (rows * cols) junk) fail with
                                 | Ok (h2, p) => ROk (h2, upd objs k (Some (mkdobj (rows * cols) p rows cols cols))) tt
                                 | _ => RThrow (h1, upd objs k (Some (mkdobj (rows * cols) (o_p o) (o_rows o) (o_columns o) (o_cols o)))) EAlloc
                                 end
                    end
        end
    | DCopy k fail =>                        (* matrix.hh:116-139 *)
        match getobj objs k with
        | None => RUB
        | Some a => match content h a with
                    | None => RUB
                    | Some l => match dalloc h (o_n a) l fail with
                                | Ok (h', p) => ROk (h', objs ++ [Some (mkdobj (o_n a) p (o_rows a) (o_columns a) (o_cols a))]) tt
                                | _ => RThrow w EAlloc
                                end
                    end
        end
    | DAssign k k' fail =>                   (* matrix.hh:178-219; then the defaulted operator= of Matrix assigns cols_ *)
        match getobj objs k, getobj objs k' with
        | Some o, Some a =>
            if k =? k' then ROk w tt else
            match content h a with
            | None => RUB
            | Some l =>
              if negb (o_n o =? o_n a) || negb (o_rows o =? o_rows a) then
                match dfree h (o_n o) (o_p o) with
                | None => RUB
                | Some h1 => match dalloc h1 (o_n a) l fail with
                             | Ok (h2, p) => ROk (h2, upd objs k (Some (mkdobj (o_n a) p (o_rows a) (o_columns a) (o_cols a)))) tt
                             | _ => RThrow (h1, upd objs k (Some (mkdobj (o_n a) (o_p o) (o_rows o) (o_columns a) (o_cols o)))) EAlloc
                             end
                end
              else match content h o, o_p o with
                   | Some _, Some b => ROk (upd h b (Some l), upd objs k (Some (mkdobj (o_n o) (o_p o) (o_rows o) (o_columns a) (o_cols a)))) tt
                   | Some _, None => ROk (h, upd objs k (Some (mkdobj (o_n o) (o_p o) (o_rows o) (o_columns a) (o_cols a)))) tt
                   | None, _ => RUB
                   end
            end
        | _, _ => RUB
        end
    | DFill k v =>                           (* matrix.hh:224-228: all elements of the array *)
        match getobj objs k with
        | None => RUB
        | Some o => match content h o with
                    | None => RUB
                    | Some l => match o_p o with Some b => ROk (upd h b (Some (map (fun _ => v) l)), objs) tt | None => ROk w tt end
                    end
        end
    | DSet k i j v =>                        (* matrix.hh:236-242: window p + i*columns_; then element j of the window *)
        match getobj objs k with
        | None => RUB
        | Some o => match content h o, o_p o with
                    | Some l, Some b => if i * o_columns o + j <? length l then ROk (upd h b (Some (upd l (i * o_columns o + j) v)), objs) tt else RUB
                    | _, _ => RUB
                    end
        end
    | DDestroy k =>                          (* matrix.hh:142-150 *)
        match getobj objs k with
        | None => RUB
        | Some o => match dfree h (o_n o) (o_p o) with Some h' => ROk (h', upd objs k None) tt | None => RUB end
        end
    end.
  (** m[i][j] *)
  Definition dread (w : dworld) (k i j : nat) : option V :=
    match getobj (snd w) k with None => None | Some o => match content (fst w) o with None => None | Some l => nth_error l (i * o_columns o + j) end end.
  (** N() and M() *)
  Definition dsizes (w : dworld) (k : nat) : option (nat * nat) := match getobj (snd w) k with None => None | Some o => Some (o_rows o, o_cols o) end.
  Fixpoint drun (w : dworld) (cs : list dcmd) : res dworld unit :=
    match cs with nil => ROk w tt | c :: t => match dstep w c with ROk w' _ => drun w' t | r => r end end.

  (** ** Specification: independent matrices with sizes and entries; None: unspecified entry *)
  Definition smx := (nat * nat * (nat -> nat -> option V))%type.
  Definition sstep (s : list (option smx)) (c : dcmd) : list (option smx) :=
    match c with
    | DNew rows cols _ _ => s ++ [Some (rows, cols, fun _ _ => None)]
    | DSetSize k rows cols _ _ => upd s k (Some (rows, cols, fun _ _ => None))
    | DCopy k _ => s ++ [nth k s None]
    | DAssign k l _ => upd s k (nth l s None)
    | DFill k v => match nth k s None with Some (r, c, f) => upd s k (Some (r, c, fun _ _ => Some v)) | None => s end
    | DSet k i j v => match nth k s None with Some (r, c, f) => upd s k (Some (r, c, fun i' j' => if (i' =? i) && (j' =? j) then Some v else f i' j')) | None => s end
    | DDestroy k => upd s k None
    end.
  Definition alive (s : list (option smx)) (k : nat) : Prop := nth k s None <> None.
  (** the caller uses existing objects, indices in range, and no allocation fails *)
  Definition legal (s : list (option smx)) (c : dcmd) : Prop :=
    match c with
    | DNew _ _ _ f => f = false
    | DSetSize k _ _ _ f => alive s k /\ f = false
    | DCopy k f => alive s k /\ f = false
    | DAssign k l f => alive s k /\ alive s l /\ f = false
    | DFill k _ => alive s k
    | DSet k i j _ => match nth k s None with Some (r, c, _) => i < r /\ j < c | None => False end
    | DDestroy k => alive s k
    end.
  Fixpoint legals (s : list (option smx)) (cs : list dcmd) : Prop := match cs with nil => True | c :: t => legal s c /\ legals (sstep s c) t end.
  Definition srun (s : list (option smx)) (cs : list dcmd) : list (option smx) := fold_left sstep cs s.

  (** invariant *)
  Definition own (o : dobj) : option nat := if o_n o =? 0 then None else o_p o.
  Definition orel (h : dmem) (o : dobj) (m : smx) : Prop :=
    let '(r, c, f) := m in
    o_n o = r * c /\ o_rows o = r /\ o_columns o = c /\ o_cols o = c /\ (o_n o = 0 -> o_p o = None) /\
    exists l, content h o = Some l /\ length l = r * c /\ forall i j v, i < r -> j < c -> f i j = Some v -> nth_error l (i * c + j) = Some v.
  Definition wrel (w : dworld) (s : list (option smx)) : Prop :=
    let '(h, objs) := w in
    length objs = length s /\
    (forall k, k < length s -> match nth k objs None, nth k s None with Some o, Some m => orel h o m | None, None => True | _, _ => False end) /\
    (forall k l o o' b, nth k objs None = Some o -> nth l objs None = Some o' -> o_p o = Some b -> o_p o' = Some b -> k = l).
  Lemma nth_app_last {A} (l : list A) x d k : k < S (length l) -> nth k (l ++ [x]) d = if k =? length l then x else nth k l d.
  Proof. intros H. destruct (Nat.eqb_spec k (length l)) as [->|]; [rewrite app_nth2, Nat.sub_diag by lia; auto|apply app_nth1; lia]. Qed.
  Lemma live_ptr h objs s k o b : wrel (h, objs) s -> nth k objs None = Some o -> o_p o = Some b -> exists l, nth_error h b = Some (Some l) /\ content h o = Some l.
  Proof.
    intros (L & R & _) HK HB. assert (k < length s). { rewrite <- L. destruct (Nat.lt_ge_cases k (length objs)); auto. rewrite nth_overflow in HK by auto. discriminate. }
    specialize (R k H). rewrite HK in R. destruct (nth k s None) as [[[r c] f]|]; [|contradiction]. destruct R as (E1 & E2 & E3 & E4 & E5 & l & C & _). exists l. split; auto. unfold content in C. destruct (Nat.eqb_spec (o_n o) 0); [rewrite E5 in HB by auto; discriminate|].
    rewrite HB in C. destruct (nth_error h b) as [[l'|]|]; congruence.
  Qed.
  Lemma content_eq h h' o : (forall b, o_p o = Some b -> nth_error h' b = nth_error h b) -> content h' o = content h o.
  Proof. intros H. unfold content. destruct (o_n o =? 0); auto. destruct (o_p o) as [b|]; auto. rewrite (H b) by auto. auto. Qed.
  Lemma orel_eq h h' o m : (forall b, o_p o = Some b -> nth_error h' b = nth_error h b) -> orel h o m -> orel h' o m.
  Proof. intros H. destruct m as [[r c] f]. unfold orel. rewrite (content_eq h h' o H). auto. Qed.
  Lemma rel_upd h objs s k h' o m : wrel (h, objs) s -> k < length s ->
    (forall l o1 b, l <> k -> nth l objs None = Some o1 -> o_p o1 = Some b -> nth_error h' b = nth_error h b) ->
    match o, m with Some o, Some m => orel h' o m | None, None => True | _, _ => False end ->
    (forall l o1 o2 b, l <> k -> nth l objs None = Some o1 -> o_p o1 = Some b -> o = Some o2 -> o_p o2 = Some b -> False) ->
    wrel (h', upd objs k o) (upd s k m).
  Proof.
    intros (L & R & U) HK HH HO HN. split; [rewrite !upd_length; auto|]. split.
    - rewrite upd_length. intros l Hl. rewrite !nth_upd. rewrite L. destruct (Nat.eqb_spec k l) as [->|NE]; [destruct (Nat.ltb_spec l (length s)); [exact HO|lia]|].
      specialize (R l Hl). destruct (nth l objs None) as [o1|] eqn:E1, (nth l s None) as [m1|]; auto. apply (orel_eq h); auto. intros b Hb. apply (HH l o1 b); auto.
    - intros l l' o1 o2 b H1 H2 B1 B2. rewrite !nth_upd, L in *. destruct (Nat.eqb_spec k l) as [Q1|N1], (Nat.eqb_spec k l') as [Q2|N2]; [congruence| | |].
      + subst l. destruct (k <? length s); [|discriminate]. subst o. exfalso. apply (HN l' o2 o1 b); auto.
      + subst l'. destruct (k <? length s); [|discriminate]. subst o. exfalso. apply (HN l o1 o2 b); auto.
      + apply (U l l' o1 o2 b); auto.
  Qed.
  Lemma rel_app h objs s h' o m : wrel (h, objs) s ->
    (forall l o1 b, nth l objs None = Some o1 -> o_p o1 = Some b -> nth_error h' b = nth_error h b) ->
    orel h' o m -> (forall l o1 b, nth l objs None = Some o1 -> o_p o1 = Some b -> o_p o = Some b -> False) ->
    wrel (h', objs ++ [Some o]) (s ++ [Some m]).
  Proof.
    intros (L & R & U) HH HO HN. split; [rewrite !app_length; cbn; lia|]. split.
    - rewrite app_length. cbn. intros l Hl. rewrite !nth_app_last by lia. rewrite L. destruct (Nat.eqb_spec l (length s)) as [->|NE]; auto. specialize (R l ltac:(lia)).
      destruct (nth l objs None) as [o1|] eqn:E1, (nth l s None) as [m1|]; auto. apply (orel_eq h); auto. intros b Hb. apply (HH l o1 b); auto.
    - intros l l' o1 o2 b H1 H2 B1 B2. assert (X : forall l o1, nth l (objs ++ [Some o]) None = Some o1 -> nth l objs None = Some o1 \/ l = length objs /\ o1 = o).
      { intros q q1 HQ. destruct (Nat.lt_ge_cases q (S (length objs))); [|rewrite nth_overflow in HQ by (rewrite app_length; cbn; lia); discriminate]. rewrite nth_app_last in HQ by auto. destruct (Nat.eqb_spec q (length objs)); auto. right. split; congruence. }
      destruct (X _ _ H1) as [X1|[X1 ->]], (X _ _ H2) as [X2|[X2 ->]]; [apply (U l l' o1 o2 b); auto| | |congruence]; exfalso; eauto.
  Qed.
  Lemma alive_obj h objs s k : wrel (h, objs) s -> alive s k -> k < length s /\ exists o m, nth k objs None = Some o /\ nth k s None = Some m /\ orel h o m.
  Proof.
    intros (L & R & _) HA. unfold alive in HA. assert (k < length s) by (destruct (Nat.lt_ge_cases k (length s)); auto; rewrite nth_overflow in HA by auto; congruence).
    split; auto. specialize (R k H). destruct (nth k objs None) as [o|], (nth k s None) as [m|]; try contradiction; try congruence. eauto.
  Qed.
  Lemma nth_error_new {A} (h : list A) x : nth_error (h ++ [x]) (length h) = Some x.
  Proof. rewrite nth_error_app2, Nat.sub_diag by lia. auto. Qed.
  Lemma dalloc_ok h n l : length l = n -> exists h' p, dalloc h n l false = Ok (h', p) /\ (forall b x, nth_error h b = Some x -> nth_error h' b = Some x) /\
    (n = 0 -> p = None) /\ (forall b, p = Some b -> b = length h) /\
    forall o, o_n o = n -> o_p o = p -> content h' o = Some l.
  Proof.
    intros HL. unfold dalloc. destruct (Nat.eqb_spec n 0) as [->|NE].
    - exists h, None. split; auto. split; auto. split; auto. split; [discriminate|]. intros o E _. unfold content. rewrite E. cbn. destruct l; [auto|discriminate].
    - exists (h ++ [Some l]), (Some (length h)). split; auto. split; [intros b x Hb; rewrite nth_error_app1; auto; apply nth_error_Some; congruence|]. split; [lia|]. split; [intros b H; injection H; auto|].
      intros o E P. unfold content. rewrite E, P. destruct (Nat.eqb_spec n 0); [lia|]. rewrite nth_error_new. auto.
  Qed.
  Lemma dfree_ok h objs s k o : wrel (h, objs) s -> nth k objs None = Some o -> exists h', dfree h (o_n o) (o_p o) = Some h' /\ length h' = length h /\ forall b, o_p o <> Some b -> nth_error h' b = nth_error h b.
  Proof.
    intros W HK. unfold dfree. destruct (Nat.eqb_spec (o_n o) 0) as [E|NE]; [eauto|]. destruct (o_p o) as [b|] eqn:EB.
    - destruct (live_ptr h objs s k o b W HK EB) as (l & E & _). rewrite E. eexists. split; auto. split; [apply upd_length|]. intros b' Hb'. clear - Hb'. assert (b <> b') by congruence. clear Hb'. revert b b' H. induction h; intros [|b] [|b'] H; cbn; auto; try congruence.
    - exfalso. destruct W as (L & R & _). assert (k < length s). { rewrite <- L. destruct (Nat.lt_ge_cases k (length objs)); auto. rewrite nth_overflow in HK by auto. discriminate. }
      specialize (R k H). rewrite HK in R. destruct (nth k s None) as [[[r c] f]|]; [|contradiction]. destruct R as (_ & _ & _ & _ & _ & l & C & _). unfold content in C. rewrite EB in C. destruct (Nat.eqb_spec (o_n o) 0); [lia|discriminate].
  Qed.
  Lemma nth_error_upd_ne {A} (h : list A) b b' x : b <> b' -> nth_error (upd h b x) b' = nth_error h b'.
  Proof. revert b b'. induction h; intros [|b] [|b'] H; cbn; auto; try congruence. Qed.
  Lemma nth_error_upd_eq {A} (h : list A) b x y : nth_error h b = Some y -> nth_error (upd h b x) b = Some x.
  Proof. revert b. induction h; intros [|b] H; cbn in *; auto; try discriminate. Qed.
  Lemma junk_length n junk : length (junklist n junk) = n.
  Proof. unfold junklist. rewrite map_length, seq_length. auto. Qed.
  Lemma position_inj c i j i' j' : j < c -> j' < c -> i * c + j = i' * c + j' -> i = i' /\ j = j'.
  Proof. intros H H' E. assert (i = i'). { destruct (lt_eq_lt_dec i i') as [[|]|]; auto; nia. } subst. lia. Qed.

  Lemma step_ok w s c : wrel w s -> legal s c -> exists w', dstep w c = ROk w' tt /\ wrel w' (sstep s c).
  Proof.
    intros W LG. destruct w as [h objs]. destruct c as [rows cols junk fail|k rows cols junk fail|k fail|k k' fail|k v|k i j v|k]; cbn [dstep sstep legal] in *.
    - subst fail. destruct (dalloc_ok h (rows * cols) _ (junk_length (rows * cols) junk)) as (h' & p & E & KEEP & P0 & PN & CT). rewrite E. eexists. split; [reflexivity|].
      apply (rel_app h); auto.
      + intros l o1 b H1 H2. destruct (live_ptr h objs s l o1 b W H1 H2) as (x & X & _). rewrite X. apply KEEP. auto.
      + unfold orel. cbn [o_n o_p o_rows o_columns o_cols]. repeat (split; auto). eexists. split; [apply CT; reflexivity|]. split; [apply junk_length|]. discriminate.
      + cbn [o_p]. intros l o1 b H1 H2 H3. apply PN in H3. destruct (live_ptr h objs s l o1 b W H1 H2) as (x & X & _). assert (b < length h) by (apply nth_error_Some; congruence). lia.
    - destruct LG as [LG ->]. destruct (alive_obj h objs s k W LG) as (HK & o & m & EO & EM & OR). unfold getobj. rewrite EO. destruct (dfree_ok h objs s k o W EO) as (h1 & F & FL & FK). rewrite F.
      destruct (dalloc_ok h1 (rows * cols) _ (junk_length (rows * cols) junk)) as (h' & p & E & KEEP & P0 & PN & CT). rewrite E. eexists. split; [reflexivity|].
      assert (OTH : forall l o1 b, l <> k -> nth l objs None = Some o1 -> o_p o1 = Some b -> exists x, nth_error h b = Some x /\ nth_error h1 b = Some x).
      { intros l o1 b NE H1 H2. destruct (live_ptr h objs s l o1 b W H1 H2) as (x & X & _). exists (Some x). split; auto. rewrite FK; auto. intros C. destruct W as (_ & _ & U). apply NE. apply (U l k o1 o b); auto. }
      apply (rel_upd h); auto.
      + intros l o1 b NE H1 H2. destruct (OTH l o1 b NE H1 H2) as (x & X1 & X2). rewrite X1. apply KEEP. auto.
      + unfold orel. cbn [o_n o_p o_rows o_columns o_cols]. repeat (split; auto). eexists. split; [apply CT; reflexivity|]. split; [apply junk_length|]. discriminate.
      + intros l o1 o2 b NE H1 H2 [= <-]. cbn [o_p]. intros H3. apply PN in H3. destruct (OTH l o1 b NE H1 H2) as (x & X1 & X2). assert (b < length h1) by (apply nth_error_Some; congruence). lia.
    - destruct LG as [LG ->]. destruct (alive_obj h objs s k W LG) as (HK & o & [[r c] f] & EO & EM & OR). unfold getobj. rewrite EO, EM. destruct OR as (O1 & O2 & O3 & O4 & O5 & l & CT0 & CL & CV). rewrite CT0.
      destruct (dalloc_ok h (o_n o) l ltac:(congruence)) as (h' & p & E & KEEP & P0 & PN & CT). rewrite E. eexists. split; [reflexivity|]. apply (rel_app h); auto.
      + intros l' o1 b H1 H2. destruct (live_ptr h objs s l' o1 b W H1 H2) as (x & X & _). rewrite X. apply KEEP. auto.
      + unfold orel. cbn [o_n o_p o_rows o_columns o_cols]. repeat (split; auto). exists l. split; [apply CT; reflexivity|]. split; auto.
      + cbn [o_p]. intros l' o1 b H1 H2 H3. apply PN in H3. destruct (live_ptr h objs s l' o1 b W H1 H2) as (x & X & _). assert (b < length h) by (apply nth_error_Some; congruence). lia.
    - destruct LG as (LG & LG' & ->). destruct (alive_obj h objs s k W LG) as (HK & o & m & EO & EM & OR). destruct (alive_obj h objs s k' W LG') as (HK' & a & [[r c] f] & EA & EMA & OA). unfold getobj. rewrite EO, EA, EMA.
      destruct (Nat.eqb_spec k k') as [->|NE]. { eexists. split; [reflexivity|]. rewrite <- EMA, upd_nth_same. auto. }
      destruct OA as (O1 & O2 & O3 & O4 & O5 & l & CT0 & CL & CV). rewrite CT0. destruct (negb (o_n o =? o_n a) || negb (o_rows o =? o_rows a)) eqn:ECMP.
      + destruct (dfree_ok h objs s k o W EO) as (h1 & F & FL & FK). rewrite F. destruct (dalloc_ok h1 (o_n a) l ltac:(congruence)) as (h' & p & E & KEEP & P0 & PN & CT). rewrite E. eexists. split; [reflexivity|].
        assert (OTH : forall l o1 b, l <> k -> nth l objs None = Some o1 -> o_p o1 = Some b -> exists x, nth_error h b = Some x /\ nth_error h1 b = Some x).
        { intros l0 o1 b NE0 H1 H2. destruct (live_ptr h objs s l0 o1 b W H1 H2) as (x & X & _). exists (Some x). split; auto. rewrite FK; auto. intros C. destruct W as (_ & _ & U). apply NE0. apply (U l0 k o1 o b); auto. }
        apply (rel_upd h); auto.
        * intros l0 o1 b NE0 H1 H2. destruct (OTH l0 o1 b NE0 H1 H2) as (x & X1 & X2). rewrite X1. apply KEEP. auto.
        * unfold orel. cbn [o_n o_p o_rows o_columns o_cols]. repeat (split; auto). exists l. split; [apply CT; reflexivity|]. split; auto.
        * intros l0 o1 o2 b NE0 H1 H2 [= <-]. cbn [o_p]. intros H3. apply PN in H3. destruct (OTH l0 o1 b NE0 H1 H2) as (x & X1 & X2). assert (b < length h1) by (apply nth_error_Some; congruence). lia.
      + apply orb_false_iff in ECMP. destruct ECMP as [C1 C2]. apply negb_false_iff, Nat.eqb_eq in C1. apply negb_false_iff, Nat.eqb_eq in C2. destruct m as [[r1 c1] f1]. destruct OR as (Q1 & Q2 & Q3 & Q4 & Q5 & lo & QT & QL & QV). rewrite QT.
        destruct (o_p o) as [b|] eqn:EB.
        * destruct (live_ptr h objs s k o b W EO EB) as (x & X & X'). eexists. split; [reflexivity|]. apply (rel_upd h); auto.
          -- intros l0 o1 b0 NE0 H1 H2. apply nth_error_upd_ne. intros <-. destruct W as (_ & _ & U). apply NE0. apply (U l0 k o1 o b); auto.
          -- unfold orel. cbn [o_n o_p o_rows o_columns o_cols]. split; [congruence|]. split; [congruence|]. split; auto. split; auto. split; auto. exists l. split; auto.
             unfold content. cbn [o_n o_p]. destruct (Nat.eqb_spec (o_n o) 0) as [Z|]; [apply Q5 in Z; discriminate|]. rewrite (nth_error_upd_eq h b _ _ X). auto.
          -- intros l0 o1 o2 b0 NE0 H1 H2 [= <-]. cbn [o_p]. intros [= <-]. destruct W as (_ & _ & U). apply NE0. apply (U l0 k o1 o b); auto.
        * eexists. split; [reflexivity|]. apply (rel_upd h); auto.
          -- unfold orel. cbn [o_n o_p o_rows o_columns o_cols]. split; [congruence|]. split; [congruence|]. split; auto. split; auto. split; auto. exists l. split; auto.
             unfold content in *. cbn [o_n o_p]. rewrite EB in QT. destruct (Nat.eqb_spec (o_n o) 0) as [Z|]; [|discriminate]. rewrite <- C1, Z in CT0. exact CT0.
          -- intros l0 o1 o2 b0 NE0 H1 H2 [= <-]. cbn [o_p]. discriminate.
    - destruct (alive_obj h objs s k W LG) as (HK & o & [[r c] f] & EO & EM & OR). unfold getobj. rewrite EO, EM. pose proof OR as (O1 & O2 & O3 & O4 & O5 & l & CT0 & CL & CV). rewrite CT0. destruct (o_p o) as [b|] eqn:EB.
      + destruct (live_ptr h objs s k o b W EO EB) as (x & X & X'). rewrite CT0 in X'. injection X' as ->. eexists. split; [reflexivity|]. rewrite <- (upd_nth_same objs k None) , EO. apply (rel_upd h); auto.
        * intros l0 o1 b0 NE0 H1 H2. apply nth_error_upd_ne. intros <-. destruct W as (_ & _ & U). apply NE0. apply (U l0 k o1 o b); auto.
        * unfold orel. rewrite EB. repeat (split; auto). exists (map (fun _ => v) x). split; [|split; [rewrite map_length; auto|]].
          -- unfold content. rewrite EB. destruct (Nat.eqb_spec (o_n o) 0) as [Z|]; [apply O5 in Z; discriminate|]. rewrite (nth_error_upd_eq h b _ _ X). auto.
          -- intros i j v' Hi Hj [= <-]. apply (map_nth_error (fun _ => v)) with (d := nth (i * c + j) x v). apply nth_error_nth'. rewrite CL. nia.
        * intros l0 o1 o2 b0 NE0 H1 H2 [= <-]. intros H3. destruct W as (_ & _ & U). apply NE0. apply (U l0 k o1 o b0); auto.
      + eexists. split; [reflexivity|]. rewrite <- (upd_nth_same objs k None), EO. apply (rel_upd h); auto.
        * unfold orel. rewrite EB. repeat (split; auto). exists l. repeat (split; auto). intros i j v' Hi Hj _. exfalso. unfold content in CT0. rewrite EB in CT0. destruct (Nat.eqb_spec (o_n o) 0) as [Z|]; [|discriminate]. nia.
        * intros l0 o1 o2 b0 NE0 H1 H2 [= <-]. congruence.
    - destruct (nth k s None) as [[[r c] f]|] eqn:EM; [|contradiction]. destruct LG as [Hi Hj]. assert (AL : alive s k) by (unfold alive; congruence). destruct (alive_obj h objs s k W AL) as (HK & o & m & EO & EM' & OR). rewrite EM in EM'. injection EM' as <-.
      unfold getobj. rewrite EO. pose proof OR as (O1 & O2 & O3 & O4 & O5 & l & CT0 & CL & CV). rewrite CT0. destruct (o_p o) as [b|] eqn:EB.
      2: { exfalso. unfold content in CT0. rewrite EB in CT0. destruct (Nat.eqb_spec (o_n o) 0) as [Z|]; [|discriminate]. nia. }
      destruct (live_ptr h objs s k o b W EO EB) as (x & X & X'). rewrite CT0 in X'. injection X' as ->. rewrite O3. destruct (Nat.ltb_spec (i * c + j) (length x)) as [HB|HB]; [|rewrite CL in HB; nia].
      eexists. split; [reflexivity|]. rewrite <- (upd_nth_same objs k None), EO. apply (rel_upd h); auto.
      + intros l0 o1 b0 NE0 H1 H2. apply nth_error_upd_ne. intros <-. destruct W as (_ & _ & U). apply NE0. apply (U l0 k o1 o b); auto.
      + unfold orel. rewrite EB. repeat (split; auto). exists (upd x (i * c + j) v). split; [|split; [rewrite upd_length; auto|]].
        * unfold content. rewrite EB. destruct (Nat.eqb_spec (o_n o) 0) as [Z|]; [apply O5 in Z; discriminate|]. rewrite (nth_error_upd_eq h b _ _ X). auto.
        * intros i' j' v' Hi' Hj'. destruct (Nat.eqb_spec i' i) as [Qi|Qi], (Nat.eqb_spec j' j) as [Qj|Qj]; cbn [andb]; try subst i'; try subst j'; [intros [= <-]| | |].
          -- destruct (nth_error x (i * c + j)) as [y|] eqn:EY; [apply (nth_error_upd_eq _ _ _ y); auto|]. apply nth_error_None in EY. lia.
          -- intros HF. rewrite nth_error_upd_ne by lia. auto.
          -- intros HF. rewrite nth_error_upd_ne; auto. intros E. apply position_inj in E; auto. lia.
          -- intros HF. rewrite nth_error_upd_ne; auto. intros E. apply position_inj in E; auto. lia.
      + intros l0 o1 o2 b0 NE0 H1 H2 [= <-]. intros H3. destruct W as (_ & _ & U). apply NE0. apply (U l0 k o1 o b0); auto.
    - destruct (alive_obj h objs s k W LG) as (HK & o & m & EO & EM & OR). unfold getobj. rewrite EO. destruct (dfree_ok h objs s k o W EO) as (h1 & F & FL & FK). rewrite F. eexists. split; [reflexivity|]. apply (rel_upd h); auto; [|discriminate].
      intros l o1 b NE H1 H2. apply FK. intros C. destruct W as (_ & _ & U). apply NE. apply (U l k o1 o b); auto.
  Qed.
  (** Every history of legal commands runs without undefined behaviour; every matrix has the sizes and entries the independent specification gives it (so no two objects share storage, and copies are copies) *)
  Theorem C38_history cs : legals nil cs -> exists w, drun (nil, nil) cs = ROk w tt /\
    forall k, match nth k (srun nil cs) None with
              | Some (r, c, f) => dsizes w k = Some (r, c) /\ (forall i j, i < r -> j < c -> exists v, dread w k i j = Some v /\ forall v', f i j = Some v' -> v = v')
              | None => dsizes w k = None
              end.
  Proof.
    assert (G : forall cs w s, wrel w s -> legals s cs -> exists w', drun w cs = ROk w' tt /\ wrel w' (srun s cs)).
    { induction cs0 as [|c t IH]; intros w s W LG; cbn [drun srun fold_left legals] in *; [eauto|]. destruct LG as [L1 L2]. destruct (step_ok w s c W L1) as (w' & E & W'). rewrite E. apply IH; auto. }
    intros LG. destruct (G cs (nil, nil) nil) as (w & E & W); auto.
    { split; auto. split; [cbn; lia|]. intros [|k] l o o' b H; cbn in H; discriminate. }
    exists w. split; auto. intros k. destruct w as [h objs]. destruct W as (L & R & U). unfold dsizes, dread, getobj. cbn [fst snd]. destruct (Nat.lt_ge_cases k (length (srun nil cs))) as [HK|HK].
    - specialize (R k HK). destruct (nth k (srun nil cs) None) as [[[r c] f]|], (nth k objs None) as [o|]; try contradiction; auto. destruct R as (O1 & O2 & O3 & O4 & O5 & l & CT0 & CL & CV). split; [congruence|]. intros i j Hi Hj. rewrite CT0, O3.
      destruct (nth_error l (i * c + j)) as [v|] eqn:EV; [|apply nth_error_None in EV; rewrite CL in EV; exfalso; nia]. exists v. split; auto. intros v' HF. specialize (CV i j v' Hi Hj HF). congruence.
    - rewrite (nth_overflow (srun nil cs)) by auto. rewrite nth_overflow by lia. auto.
  Qed.
End Storage.
(** Deviation: if the allocation in setSize (or in an assignment) throws, the object keeps a pointer to freed storage, and destroying it is undefined *)
Theorem C38_alloc_failure_refuted : forall V (junk : nat -> V),
  exists w, drun (nil, nil) [DNew 1 1 junk false; DSetSize 0 2 2 junk true] = RThrow w EAlloc /\ dstep w (DDestroy 0) = RUB.
Proof. intros V junk. eexists. split; reflexivity. Qed.
Example C38_history_nonvacuous : let cs := [DNew 2 3 (fun _ => 9) false; DFill 0 1; DSet 0 1 2 5; DCopy 0 false; DSet 0 1 2 7; DSetSize 0 3 0 (fun _ => 9) false; DNew 1 1 (fun _ => 9) false; DAssign 2 1 false; DDestroy 1] in
  legals nil cs /\ match drun (nil, nil) cs with ROk w _ => (dsizes w 0, dsizes w 2, dread w 2 1 2, dread w 2 0 1) | _ => (None, None, None, None) end = (Some (3, 0), Some (2, 3), Some 5, Some 1).
Proof. split; [cbn; repeat split; try discriminate; lia|reflexivity]. Qed.

(** ** Arithmetic *)
Section Arith.
  Context {R : ring}.
  Local Open Scope ring_scope_istl.
  Variables (tr hj : R -> R).   (* transposed and conjugate transposed entry *)
  (** a matrix value: sizes and the array *)
  Record dmx := mkdmx { d_rows : nat; d_cols : nat; d_p : list R }.
  (** (fun i j) the window of row i starts at p + i*columns_ (matrix.hh:236-251) *)
  Definition dget (m : dmx) (i j : nat) : R := nth (i * d_cols m + j) (d_p m) r0.
  Definition dset (m : dmx) (i j : nat) (v : R) : dmx := mkdmx (d_rows m) (d_cols m) (upd (d_p m) (i * d_cols m + j) v).
  (** for (size_type i=0; i<n; i++) *)
  Definition for_ {S} (n : nat) (body : nat -> S -> S) (s : S) : S := fold_left (fun s i => body i s) (seq 0 n) s.
  (** Matrix(rows, cols) with arbitrary content [junk] *)
  Definition dnew (rows cols : nat) (junk : nat -> R) : dmx := mkdmx rows cols (map junk (seq 0 (rows * cols))).
  (** operator=(scalar), operator*=, +=, -= act on the array (matrix.hh:662-738) *)
  Definition dfill (m : dmx) (t : R) : dmx := mkdmx (d_rows m) (d_cols m) (map (fun _ => t) (d_p m)).
  Definition dscale (m : dmx) (t : R) : dmx := mkdmx (d_rows m) (d_cols m) (map (fun a => a * t) (d_p m)).
  Definition dzip (f : R -> R -> R) (m b : dmx) : dmx := mkdmx (d_rows m) (d_cols m) (map (fun q => f (fst q) (snd q)) (combine (d_p m) (d_p b))).
  Definition dadd := dzip (fun a b => a + b).
  Definition dsub := dzip (fun a b => a - b).
  (** transpose, matrix.hh:741-748 *)
  Definition dtranspose (junk : nat -> R) (m : dmx) : dmx :=
    for_ (d_rows m) (fun i => for_ (d_cols m) (fun j out => dset out j i (dget m i j))) (dnew (d_cols m) (d_rows m) junk).
  (** operator*(Matrix,Matrix), matrix.hh:751-763 *)
  Definition dmul (junk : nat -> R) (m1 m2 : dmx) : dmx :=
    for_ (d_rows m1) (fun i => for_ (d_cols m2) (fun j => for_ (d_cols m1) (fun k out => dset out i j (dget out i j + dget m1 i k * dget m2 k j)))) (dfill (dnew (d_rows m1) (d_cols m2) junk) r0).
  (** mv, umv, mmv, usmv, matrix.hh:784-799, 816-864 *)
  Definition dgather (term : nat -> nat -> R) (m : dmx) (y : vec R) : vec R := for_ (d_rows m) (fun i => for_ (d_cols m) (fun j y => upd y i (vget y i + term i j))) y.
  Definition dmv (m : dmx) (x y : vec R) : vec R := for_ (d_rows m) (fun i y => for_ (d_cols m) (fun j y => upd y i (vget y i + dget m i j * vget x j)) (upd y i r0)) y.
  Definition dumv (m : dmx) (x y : vec R) : vec R := dgather (fun i j => dget m i j * vget x j) m y.
  Definition dmmv (m : dmx) (x y : vec R) : vec R := dgather (fun i j => - (dget m i j * vget x j)) m y.
  Definition dusmv (alpha : R) (m : dmx) (x y : vec R) : vec R := dgather (fun i j => alpha * (dget m i j * vget x j)) m y.
  (** umtv, mmtv, usmtv, umhv, mmhv, usmhv, matrix.hh:867-966; mtv :803-813 *)
  Definition dscatter (term : nat -> nat -> R) (m : dmx) (y : vec R) : vec R := for_ (d_rows m) (fun i => for_ (d_cols m) (fun j y => upd y j (vget y j + term i j))) y.
  Definition dumtv (m : dmx) (x y : vec R) : vec R := dscatter (fun i j => tr (dget m i j) * vget x i) m y.
  Definition dmtv (m : dmx) (x y : vec R) : vec R := dumtv m x (for_ (length y) (fun i y => upd y i r0) y).
  Definition dmmtv (m : dmx) (x y : vec R) : vec R := dscatter (fun i j => - (tr (dget m i j) * vget x i)) m y.
  Definition dusmtv (alpha : R) (m : dmx) (x y : vec R) : vec R := dscatter (fun i j => alpha * (tr (dget m i j) * vget x i)) m y.
  Definition dumhv (m : dmx) (x y : vec R) : vec R := dscatter (fun i j => hj (dget m i j) * vget x i) m y.
  Definition dmmhv (m : dmx) (x y : vec R) : vec R := dscatter (fun i j => - (hj (dget m i j) * vget x i)) m y.
  Definition dusmhv (alpha : R) (m : dmx) (x y : vec R) : vec R := dscatter (fun i j => alpha * (hj (dget m i j) * vget x i)) m y.
  (** exists with DUNE_ISTL_WITH_CHECKING, matrix.hh:1064-1071 *)
  Definition dexists (m : dmx) (i j : nat) : outcome bool := if d_rows m <=? i then Throw EISTL else if d_cols m <=? i then Throw EISTL else Ok true.
  (** for (row=begin(); row!=end(); ++row): iterators compare the pointer of their window, ++ advances it by the number of columns (matrix.hh:266-345). The result: index and window start of every row visited *)
  Fixpoint dvisit (fuel : nat) (m : dmx) (i ptr : nat) : outcome (list (nat * nat)) :=
    if ptr =? d_rows m * d_cols m then Ok nil else
    match fuel with 0 => UB | S f => obind (dvisit f m (S i) (ptr + d_cols m)) (fun l => Ok ((i, ptr) :: l)) end.

  (** ** Specification *)
  Definition dwf (m : dmx) : Prop := length (d_p m) = (d_rows m * d_cols m)%nat.
  Definition is_mat (m : dmx) (r c : nat) (f : nat -> nat -> R) : Prop := dwf m /\ d_rows m = r /\ d_cols m = c /\ forall i j, i < r -> j < c -> dget m i j = f i j.

  Lemma for_S {S} n body (s : S) : for_ (Datatypes.S n) body s = body n (for_ n body s).
  Proof. unfold for_. rewrite seq_S, fold_left_app. reflexivity. Qed.
  Lemma gather_row (t : nat -> R) n : forall (y : vec R) i, i < length y ->
    for_ n (fun j y => upd y i (vget y i + t j)) y = upd y i (vget y i + sum n t).
  Proof.
    induction n as [|n IH]; intros y i Hi; [cbn; rewrite radd_0_r; unfold vget; rewrite upd_nth_same; auto|]. rewrite for_S, IH by auto. cbn [sum]. unfold vget. rewrite nth_upd_eq by auto. rewrite radd_assoc. clear.
    revert i. induction y as [|a y IHy]; intros [|i]; cbn; auto. f_equal. apply IHy.
  Qed.
  Lemma gather_ok (term : nat -> nat -> R) (y : vec R) n c : n <= length y ->
    let y' := for_ n (fun i => for_ c (fun j y => upd y i (vget y i + term i j))) y in
    length y' = length y /\ forall i, vget y' i = if i <? n then vget y i + sum c (term i) else vget y i.
  Proof.
    cbv zeta. induction n as [|n IH]; intros H; [split; auto|]. destruct IH as [L V]; [lia|]. rewrite for_S. rewrite gather_row by lia. split; [rewrite upd_length; auto|]. intros i. unfold vget at 1. rewrite nth_upd, L.
    destruct (Nat.eqb_spec n i) as [->|NE].
    - destruct (Nat.ltb_spec i (length y)); [|lia]. destruct (Nat.ltb_spec i (S i)); [|lia]. rewrite V. rewrite Nat.ltb_irrefl. auto.
    - fold (vget (for_ n (fun i => for_ c (fun j y => upd y i (vget y i + term i j))) y) i). rewrite V. destruct (Nat.ltb_spec i n), (Nat.ltb_spec i (S n)); auto; lia.
  Qed.
  Lemma scatter_row (t : nat -> R) c : forall (y : vec R), c <= length y ->
    let y' := for_ c (fun j y => upd y j (vget y j + t j)) y in length y' = length y /\ forall j, vget y' j = if j <? c then vget y j + t j else vget y j.
  Proof.
    cbv zeta. induction c as [|c IH]; intros y H; [split; auto|]. destruct (IH y ltac:(lia)) as [L V]. rewrite for_S. split; [rewrite upd_length; auto|]. intros j. unfold vget at 1. rewrite nth_upd, L.
    destruct (Nat.eqb_spec c j) as [->|NE].
    - destruct (Nat.ltb_spec j (length y)); [|lia]. destruct (Nat.ltb_spec j (S j)); [|lia]. rewrite V. rewrite Nat.ltb_irrefl. auto.
    - fold (vget (for_ c (fun j y => upd y j (vget y j + t j)) y) j). rewrite V. destruct (Nat.ltb_spec j c), (Nat.ltb_spec j (S c)); auto; lia.
  Qed.
  Lemma scatter_ok (term : nat -> nat -> R) (y : vec R) n c : c <= length y ->
    let y' := for_ n (fun i => for_ c (fun j y => upd y j (vget y j + term i j))) y in
    length y' = length y /\ forall j, vget y' j = if j <? c then vget y j + sum n (fun i => term i j) else vget y j.
  Proof.
    cbv zeta. induction n as [|n IH]; intros H.
    - split; [reflexivity|]. intros j. cbn [sum]. change (for_ 0 (fun i => for_ c (fun j y => upd y j (vget y j + term i j))) y) with y. destruct (j <? c); auto. rewrite radd_0_r. auto.
    - destruct IH as [L V]; auto. rewrite for_S. destruct (scatter_row (term n) c (for_ n (fun i => for_ c (fun j y => upd y j (vget y j + term i j))) y)) as [L2 V2]; [lia|]. split; [congruence|]. intros j. rewrite V2, V. cbn [sum]. destruct (j <? c); auto. rewrite radd_assoc. auto.
  Qed.
  Theorem C38_products m n c (x y : vec R) : dwf m -> d_rows m = n -> d_cols m = c -> length x = c -> length y = n ->
    is_vec (dmv m x y) n (fun i => sum c (fun j => dget m i j * vget x j)) /\
    is_vec (dumv m x y) n (fun i => vget y i + sum c (fun j => dget m i j * vget x j)) /\
    is_vec (dmmv m x y) n (fun i => vget y i - sum c (fun j => dget m i j * vget x j)) /\
    forall alpha, is_vec (dusmv alpha m x y) n (fun i => vget y i + alpha * sum c (fun j => dget m i j * vget x j)).
  Proof.
    intros HW HN HC Hx Hy. unfold dumv, dmmv, dusmv, dgather, dmv. rewrite HN, HC. split; [|split; [|split; [|intros alpha]]].
    - assert (G : forall k, k <= n -> let y' := for_ k (fun i y => for_ c (fun j y => upd y i (vget y i + dget m i j * vget x j)) (upd y i r0)) y in length y' = n /\ forall i, i < k -> vget y' i = sum c (fun j => dget m i j * vget x j)).
      { cbv zeta. induction k as [|k IH]; intros Hk; [split; auto; lia|]. destruct IH as [L V]; [lia|]. rewrite for_S. rewrite (gather_row (fun j => dget m k j * vget x j)) by (rewrite upd_length; lia). split; [rewrite !upd_length; auto|]. intros i Hi. unfold vget at 1. rewrite nth_upd, upd_length, L.
        destruct (Nat.eqb_spec k i) as [->|NE]; [destruct (Nat.ltb_spec i n); [|lia]; unfold vget at 1; rewrite nth_upd_eq by lia; apply radd_0_l|]. rewrite nth_upd_ne by auto. apply V. lia. }
      destruct (G n (le_n n)) as [L V]. split; auto.
    - destruct (gather_ok (fun i j => dget m i j * vget x j) y n c ltac:(lia)) as [L V]. split; [congruence|]. intros i Hi. rewrite V. destruct (Nat.ltb_spec i n); [auto|lia].
    - destruct (gather_ok (fun i j => - (dget m i j * vget x j)) y n c ltac:(lia)) as [L V]. split; [congruence|]. intros i Hi. rewrite V. destruct (Nat.ltb_spec i n); [rewrite sum_opp; auto|lia].
    - destruct (gather_ok (fun i j => alpha * (dget m i j * vget x j)) y n c ltac:(lia)) as [L V]. split; [congruence|]. intros i Hi. rewrite V. destruct (Nat.ltb_spec i n); [rewrite sum_mul_l; auto|lia].
  Qed.
  Lemma zero_ok (y : vec R) : let y' := for_ (length y) (fun i y => upd y i r0) y in length y' = length y /\ forall i, vget y' i = r0.
  Proof.
    cbv zeta. assert (G : forall k, k <= length y -> let y' := for_ k (fun i y => upd y i r0) y in length y' = length y /\ forall i, i < k -> vget y' i = r0).
    { cbv zeta. induction k as [|k IH]; intros Hk; [split; auto; lia|]. destruct IH as [L V]; [lia|]. rewrite for_S. split; [rewrite upd_length; auto|]. intros i Hi. unfold vget. rewrite nth_upd, L. destruct (Nat.eqb_spec k i); [destruct (i <? length y); auto|apply V; lia]. }
    destruct (G (length y) (le_n _)) as [L V]. split; auto. intros i. destruct (Nat.lt_ge_cases i (length y)); auto. unfold vget. apply nth_overflow. lia.
  Qed.
  Theorem C38_transposed_products m n c (x y : vec R) : dwf m -> d_rows m = n -> d_cols m = c -> length x = n -> length y = c ->
    is_vec (dmtv m x y) c (fun j => sum n (fun i => tr (dget m i j) * vget x i)) /\
    is_vec (dumtv m x y) c (fun j => vget y j + sum n (fun i => tr (dget m i j) * vget x i)) /\
    is_vec (dmmtv m x y) c (fun j => vget y j - sum n (fun i => tr (dget m i j) * vget x i)) /\
    is_vec (dumhv m x y) c (fun j => vget y j + sum n (fun i => hj (dget m i j) * vget x i)) /\
    is_vec (dmmhv m x y) c (fun j => vget y j - sum n (fun i => hj (dget m i j) * vget x i)) /\
    forall alpha, is_vec (dusmtv alpha m x y) c (fun j => vget y j + alpha * sum n (fun i => tr (dget m i j) * vget x i)) /\
                  is_vec (dusmhv alpha m x y) c (fun j => vget y j + alpha * sum n (fun i => hj (dget m i j) * vget x i)).
  Proof.
    intros HW HN HC Hx Hy. unfold dmtv, dumtv, dmmtv, dusmtv, dumhv, dmmhv, dusmhv, dscatter. rewrite HN, HC.
    assert (G : forall t (y0 : vec R), length y0 = c -> is_vec (for_ n (fun i => for_ c (fun j y => upd y j (vget y j + t i j))) y0) c (fun j => vget y0 j + sum n (fun i => t i j))).
    { intros t y0 H0. destruct (scatter_ok t y0 n c ltac:(lia)) as [L V]. split; [congruence|]. intros j Hj. rewrite V. destruct (Nat.ltb_spec j c); [auto|lia]. }
    assert (E : forall (y0 : vec R) f g, is_vec y0 c f -> (forall j, j < c -> f j = g j) -> is_vec y0 c g) by (intros y0 f g [L V] H; split; auto; intros j Hj; rewrite V; auto).
    destruct (zero_ok y) as [Z1 Z2].
    repeat match goal with |- _ /\ _ => split | |- forall _, _ => intros alpha end; (eapply E; [apply G; congruence|]); intros j Hj; cbn beta; rewrite ?sum_opp, ?sum_mul_l, ?Z2, ?radd_0_l; auto.
  Qed.
  (** ** matrix-valued operations *)
  Lemma dget_dset m i j i' j' v : dwf m -> i < d_rows m -> j < d_cols m -> i' < d_rows m -> j' < d_cols m ->
    dget (dset m i j v) i' j' = if (i' =? i) && (j' =? j) then v else dget m i' j'.
  Proof.
    intros HW Hi Hj Hi' Hj'. unfold dget, dset. cbn [d_cols d_p]. rewrite nth_upd. unfold dwf in HW. destruct (Nat.eqb_spec (i * d_cols m + j) (i' * d_cols m + j')) as [E|NE].
    - apply position_inj in E; auto. destruct E as [-> ->]. rewrite !Nat.eqb_refl. cbn [andb]. destruct (Nat.ltb_spec (i' * d_cols m + j') (length (d_p m))); [auto|rewrite HW in *; nia].
    - destruct (Nat.eqb_spec i' i), (Nat.eqb_spec j' j); cbn [andb]; auto. subst. congruence.
  Qed.
  Lemma dset_wf m i j v : dwf m -> dwf (dset m i j v).
  Proof. unfold dwf, dset. cbn. rewrite upd_length. auto. Qed.
  Lemma dnew_wf r c junk : dwf (dnew r c junk).
  Proof. unfold dwf, dnew. cbn. rewrite map_length, seq_length. auto. Qed.
  Lemma dget_map m (f : R -> R) i j : dwf m -> i < d_rows m -> j < d_cols m -> dget (mkdmx (d_rows m) (d_cols m) (map f (d_p m))) i j = f (dget m i j).
  Proof.
    intros HW Hi Hj. unfold dget. cbn [d_cols d_p]. rewrite (nth_indep _ r0 (f r0)) by (rewrite map_length, HW; nia). apply map_nth.
  Qed.
  Theorem C38_transpose junk m n c : dwf m -> d_rows m = n -> d_cols m = c -> is_mat (dtranspose junk m) c n (fun j i => dget m i j).
  Proof.
    intros HW HN HC. unfold dtranspose. rewrite HN, HC.
    assert (IN : forall i k out, i < n -> k <= c -> dwf out -> d_rows out = c -> d_cols out = n ->
      let o := for_ k (fun j out => dset out j i (dget m i j)) out in
      dwf o /\ d_rows o = c /\ d_cols o = n /\ forall a b, a < c -> b < n -> dget o a b = if (b =? i) && (a <? k) then dget m i a else dget out a b).
    { cbv zeta. intros i k out Hi. induction k as [|k IH]; intros Hk W D1 D2; [cbn [for_ seq fold_left]; repeat (split; auto); intros; rewrite andb_false_r; auto|].
      destruct IH as (W' & E1 & E2 & V); auto; [lia|]. rewrite for_S. split; [apply dset_wf; auto|]. split; auto. split; auto. intros a b Ha Hb. rewrite dget_dset by (auto; lia). rewrite V by auto.
      destruct (Nat.eqb_spec a k), (Nat.eqb_spec b i), (Nat.ltb_spec a k), (Nat.ltb_spec a (S k)); cbn [andb]; subst; auto; lia. }
    assert (OUT : forall k, k <= n -> let o := for_ k (fun i => for_ c (fun j out => dset out j i (dget m i j))) (dnew c n junk) in
      dwf o /\ d_rows o = c /\ d_cols o = n /\ forall a b, a < c -> b < k -> dget o a b = dget m b a).
    { cbv zeta. induction k as [|k IH]; intros Hk; [cbn [for_ seq fold_left]; split; [apply dnew_wf|repeat (split; auto); lia]|]. destruct IH as (W' & E1 & E2 & V); [lia|]. rewrite for_S.
      match goal with |- context [for_ c _ ?o] => destruct (IN k c o) as (W2 & F1 & F2 & V2); auto; try lia end. split; auto. split; auto. split; auto. intros a b Ha Hb. rewrite V2 by lia. destruct (Nat.eqb_spec b k); cbn [andb]; [destruct (Nat.ltb_spec a c); [subst; auto|lia]|apply V; lia]. }
    destruct (OUT n (le_n n)) as (W & E1 & E2 & V). split; auto.
  Qed.
  Theorem C38_product junk m1 m2 n k c : dwf m1 -> dwf m2 -> d_rows m1 = n -> d_cols m1 = k -> d_rows m2 = k -> d_cols m2 = c ->
    is_mat (dmul junk m1 m2) n c (fun i j => sum k (fun l => dget m1 i l * dget m2 l j)).
  Proof.
    intros W1 W2 HN HK HK2 HC. unfold dmul. rewrite HN, HK, HC. set (t := fun i j l => dget m1 i l * dget m2 l j).
    assert (ENT : forall i j q out, i < n -> j < c -> dwf out -> d_rows out = n -> d_cols out = c ->
      let o := for_ q (fun l out => dset out i j (dget out i j + t i j l)) out in
      dwf o /\ d_rows o = n /\ d_cols o = c /\ forall a b, a < n -> b < c -> dget o a b = if (a =? i) && (b =? j) then dget out i j + sum q (t i j) else dget out a b).
    { cbv zeta. intros i j q out Hi Hj W D1 D2. induction q as [|q IH].
      - cbn [for_ seq fold_left sum]. repeat (split; auto). intros a b Ha Hb. destruct (Nat.eqb_spec a i), (Nat.eqb_spec b j); cbn [andb]; subst; auto. rewrite radd_0_r. auto.
      - destruct IH as (W' & E1 & E2 & V). rewrite for_S. split; [apply dset_wf; auto|]. split; auto. split; auto. intros a b Ha Hb. rewrite dget_dset by (auto; lia). rewrite !V by auto. rewrite !Nat.eqb_refl. cbn [andb sum]. destruct ((a =? i) && (b =? j)); auto. rewrite radd_assoc. auto. }
    assert (ROW : forall i q out, i < n -> q <= c -> dwf out -> d_rows out = n -> d_cols out = c ->
      let o := for_ q (fun j => for_ k (fun l out => dset out i j (dget out i j + t i j l))) out in
      dwf o /\ d_rows o = n /\ d_cols o = c /\ forall a b, a < n -> b < c -> dget o a b = if (a =? i) && (b <? q) then dget out i b + sum k (t i b) else dget out a b).
    { cbv zeta. intros i q out Hi. induction q as [|q IH]; intros Hq W D1 D2; [cbn [for_ seq fold_left]; repeat (split; auto); intros; rewrite andb_false_r; auto|].
      destruct IH as (W' & E1 & E2 & V); auto; [lia|]. rewrite for_S. match goal with |- context [for_ k _ ?o] => destruct (ENT i q k o) as (W3 & F1 & F2 & V3); auto; try lia end. split; auto. split; auto. split; auto. intros a b Ha Hb. rewrite V3 by auto. rewrite !V by (auto; lia).
      rewrite Nat.ltb_irrefl, andb_false_r. destruct (Nat.eqb_spec a i), (Nat.eqb_spec b q), (Nat.ltb_spec b q), (Nat.ltb_spec b (S q)); cbn [andb]; subst; auto; lia. }
    set (o0 := dfill (dnew n c junk) r0).
    assert (Z : dwf o0 /\ d_rows o0 = n /\ d_cols o0 = c /\ forall a b, a < n -> b < c -> dget o0 a b = r0).
    { split; [unfold dwf, o0, dfill; cbn [d_p d_rows d_cols]; rewrite map_length; apply dnew_wf|]. split; auto. split; auto. intros a b Ha Hb. exact (dget_map (dnew n c junk) (fun _ => r0) a b (dnew_wf n c junk) Ha Hb). }
    destruct Z as (Z1 & Z2 & Z3 & Z4).
    assert (OUT : forall q, q <= n -> let o := for_ q (fun i => for_ c (fun j => for_ k (fun l out => dset out i j (dget out i j + t i j l)))) o0 in
      dwf o /\ d_rows o = n /\ d_cols o = c /\ forall a b, a < n -> b < c -> dget o a b = if a <? q then sum k (t a b) else r0).
    { cbv zeta. induction q as [|q IH]; intros Hq; [cbn [for_ seq fold_left]; repeat (split; auto)|]. destruct IH as (W' & E1 & E2 & V); [lia|]. rewrite for_S.
      match goal with |- context [for_ c _ ?o] => destruct (ROW q c o) as (W3 & F1 & F2 & V3); auto; try lia end. split; auto. split; auto. split; auto. intros a b Ha Hb. rewrite V3 by auto. rewrite !V by (auto; lia). rewrite Nat.ltb_irrefl.
      destruct (Nat.eqb_spec a q), (Nat.ltb_spec b c), (Nat.ltb_spec a q), (Nat.ltb_spec a (S q)); cbn [andb]; subst; auto; try lia. rewrite radd_0_l. auto. }
    destruct (OUT n (le_n n)) as (W & E1 & E2 & V). split; auto. split; auto. split; auto. intros i j Hi Hj. rewrite V by auto. destruct (Nat.ltb_spec i n); [auto|lia].
  Qed.
  Theorem C38_arithmetic m b n c : dwf m -> dwf b -> d_rows m = n -> d_cols m = c -> d_rows b = n -> d_cols b = c ->
    is_mat (dadd m b) n c (fun i j => dget m i j + dget b i j) /\ is_mat (dsub m b) n c (fun i j => dget m i j - dget b i j) /\
    forall t, is_mat (dscale m t) n c (fun i j => dget m i j * t) /\ is_mat (dfill m t) n c (fun _ _ => t).
  Proof.
    intros W1 W2 H1 H2 H3 H4.
    assert (G : forall f, is_mat (dzip f m b) n c (fun i j => f (dget m i j) (dget b i j))).
    { intros f. unfold dwf in *. assert (EL : length (d_p m) = length (d_p b)) by congruence. split; [unfold dwf, dzip; cbn [d_p d_rows d_cols]; rewrite map_length, combine_length; lia|]. split; auto. split; auto. intros i j Hi Hj. unfold dget, dzip. cbn [d_cols d_p].
      rewrite (nth_indep _ r0 ((fun q => f (fst q) (snd q)) (@r0 R, @r0 R))) by (rewrite map_length, combine_length, <- EL, Nat.min_id, W1; nia). rewrite (map_nth (fun q => f (fst q) (snd q)) (combine (d_p m) (d_p b)) (@r0 R, @r0 R)), combine_nth by auto. cbn [fst snd]. rewrite H2, H4. auto. }
    split; [apply (G (fun a b => a + b))|]. split; [apply (G (fun a b => a - b))|]. intros t. split.
    - split; [unfold dwf, dscale in *; cbn [d_p d_rows d_cols]; rewrite map_length; auto|]. split; auto. split; auto. intros i j Hi Hj. apply (dget_map m (fun a => a * t)); auto; lia.
    - split; [unfold dwf, dfill in *; cbn [d_p d_rows d_cols]; rewrite map_length; auto|]. split; auto. split; auto. intros i j Hi Hj. apply (dget_map m (fun _ => t)); auto; lia.
  Qed.
  (** iteration visits every row once, in order, with its own window, if there is at least one column *)
  Theorem C38_iteration m fuel : 0 < d_cols m -> d_rows m <= fuel -> dvisit fuel m 0 0 = Ok (map (fun i => (i, i * d_cols m)%nat) (seq 0 (d_rows m))).
  Proof.
    intros HC. assert (G : forall k i f, (i + k)%nat = d_rows m -> k <= f -> dvisit f m i (i * d_cols m)%nat = Ok (map (fun i => (i, i * d_cols m)%nat) (seq i k))).
    { induction k as [|k IH]; intros i f Hi Hf.
      - assert (i = d_rows m) as -> by lia. destruct f; cbn [dvisit seq map]; rewrite Nat.eqb_refl; auto.
      - destruct f as [|f]; [lia|]. cbn [dvisit]. destruct (Nat.eqb_spec (i * d_cols m) (d_rows m * d_cols m)); [nia|]. replace (i * d_cols m + d_cols m)%nat with (S i * d_cols m)%nat by (cbn; lia). rewrite IH by lia. reflexivity. }
    intros HF. apply (G (d_rows m) 0); lia.
  Qed.
  (** Deviation: a matrix without columns has no rows for its iterators *)
  Theorem C38_no_columns_refuted m fuel : d_cols m = 0 -> dvisit fuel m 0 0 = Ok nil.
  Proof. intros HC. destruct fuel; cbn [dvisit]; rewrite HC, Nat.mul_0_r; auto. Qed.
  (** exists() with checking: right for square matrices; it never looks at j *)
  Theorem C38_exists m i j : d_rows m = d_cols m -> i < d_rows m -> j < d_cols m -> dexists m i j = Ok true.
  Proof. intros E Hi Hj. unfold dexists. destruct (Nat.leb_spec (d_rows m) i); [lia|]. destruct (Nat.leb_spec (d_cols m) i); [lia|auto]. Qed.
  (** Deviation: an existing entry is rejected if there are more rows than columns, and a column out of range is accepted *)
  Theorem C38_exists_refuted : (forall m i j, d_cols m <= i < d_rows m -> j < d_cols m -> dexists m i j = Throw EISTL) /\ (forall m i j, i < d_rows m -> i < d_cols m <= j -> dexists m i j = Ok true).
  Proof.
    split; intros m i j H1 H2; unfold dexists; destruct (Nat.leb_spec (d_rows m) i); try lia; destruct (Nat.leb_spec (d_cols m) i); auto; lia.
  Qed.
End Arith.
(** Deviation: transpose() leaves the entries alone; for matrices of blocks transpose().mv is not mtv *)
From Coq Require Import ZArith.
Definition m2tr (a : m2 Z) : m2 Z := M2 (m11 a) (m21 a) (m12 a) (m22 a).
Theorem C38_transpose_blocks_refuted : exists (m : @dmx (M2ring Zring)) (x y : vec (M2ring Zring)), dwf m /\ length x = d_rows m /\ length y = d_cols m /\
  dmtv (R := M2ring Zring) m2tr m x y <> dmv (dtranspose (fun _ => r0) m) x y.
Proof.
  exists (mkdmx (R := M2ring Zring) 1 1 [M2 0%Z 1%Z 0%Z 0%Z]), [M2 1%Z 0%Z 0%Z 1%Z], [M2 0%Z 0%Z 0%Z 0%Z]. split; [reflexivity|]. split; [reflexivity|]. split; [reflexivity|]. vm_compute. intros H. discriminate H.
Qed.
Example C38_arith_nonvacuous : let m := mkdmx (R := Zring) 2 3 [1%Z; 2%Z; 3%Z; 4%Z; 5%Z; 6%Z] in
  dwf m /\ dmv (R := Zring) m [1%Z; 0%Z; 2%Z] [9%Z; 9%Z] = [7%Z; 16%Z] /\ d_p (dmul (R := Zring) (fun _ => 7%Z) m (dtranspose (R := Zring) (fun _ => 8%Z) m)) = [14%Z; 32%Z; 32%Z; 77%Z] /\ dvisit 5 m 0 0 = Ok [(0, 0); (1, 3)].
Proof. repeat split. Qed.
Print Assumptions C38_history.
Print Assumptions C38_products.
Print Assumptions C38_transposed_products.
Print Assumptions C38_transpose.
Print Assumptions C38_product.
Print Assumptions C38_arithmetic.
Print Assumptions C38_iteration.
