(** * flatVectorForEach and flatMatrixForEach (C42): dune/istl/foreach.hh *)
From Coq Require Import Arith List Lia Bool.
From Verif Require Import Outcome.
Import ListNotations.
Open Scope nat_scope.

(** ** Blocked vectors *)
Section Vec.
  Context {A : Type}.   (* a reference to a scalar entry *)
  (** a vector of any nesting (BlockVector, FieldVector, MultiTypeBlockVector, ...): a scalar, or a container accessed by index *)
  Inductive vtree := VScalar (a : A) | VNode (l : list vtree).
  (** flatVectorForEach, foreach.hh:90-108; the calls f(entry, offset) in their order, and the return value *)
  Fixpoint fvfe (v : vtree) (offset : nat) : list (A * nat) * nat :=
    match v with
    | VScalar a => ([(a, offset)], 1)
    | VNode l =>
        (fix loop (l : list vtree) (idx : nat) (calls : list (A * nat)) : list (A * nat) * nat :=
           match l with
           | nil => (calls, idx)
           | x :: t => let '(cs, n) := fvfe x (offset + idx) in loop t (idx + n) (calls ++ cs)
           end) l 0 nil
    end.
  (** Specification: the scalar entries from left to right *)
  Fixpoint entries (v : vtree) : list A := match v with VScalar a => [a] | VNode l => flat_map entries l end.
  Section Ind.
    Variable P : vtree -> Prop.
    Hypothesis HS : forall a, P (VScalar a).
    Hypothesis HN : forall l, Forall P l -> P (VNode l).
    Fixpoint vtree_ind' (v : vtree) : P v :=
      match v with
      | VScalar a => HS a
      | VNode l => HN l ((fix go (l : list vtree) : Forall P l := match l with nil => Forall_nil _ | x :: t => Forall_cons _ (vtree_ind' x) (go t) end) l)
      end.
  End Ind.
  (** C42 (vectors): the functor is called once per scalar entry, in order, with the offsets offset, offset+1, ...; the number of entries is returned *)
  Theorem C42_vector v offset : fvfe v offset = (combine (entries v) (seq offset (length (entries v))), length (entries v)).
  Proof.
    revert offset. induction v as [a|l IH] using vtree_ind'; intros offset; [reflexivity|]. cbn [fvfe entries].
    match goal with |- ?g l 0 nil = _ => set (loop := g) end.
    assert (G : forall l, Forall (fun v => forall off, fvfe v off = (combine (entries v) (seq off (length (entries v))), length (entries v))) l -> forall idx calls,
      loop l idx calls = (calls ++ combine (flat_map entries l) (seq (offset + idx) (length (flat_map entries l))), idx + length (flat_map entries l))).
    { induction l0 as [|x t IHt]; intros F idx calls; cbn [flat_map length combine seq]; [subst loop; cbn; now rewrite app_nil_r, Nat.add_0_r|].
      inversion F as [|y t' HX HT]; subst. assert (E : loop (x :: t) idx calls = let '(cs, n) := fvfe x (offset + idx) in loop t (idx + n) (calls ++ cs)) by reflexivity. rewrite E, HX, IHt by auto. rewrite app_length, seq_app.
      f_equal; [|lia]. rewrite <- app_assoc. f_equal. replace (offset + (idx + length (entries x))) with (offset + idx + length (entries x)) by lia.
      assert (CA : forall (l1 l2 : list A) (m1 m2 : list nat), length l1 = length m1 -> combine (l1 ++ l2) (m1 ++ m2) = combine l1 m1 ++ combine l2 m2).
      { induction l1 as [|? ? I1]; intros l2 [|? ?] m2 H; cbn in *; try discriminate; auto. now rewrite I1 by congruence. }
      symmetry. apply CA. symmetry. apply seq_length. }
    rewrite (G l IH 0 nil), Nat.add_0_r. reflexivity.
  Qed.
End Vec.
Example C42_vector_nonvacuous : fvfe (VNode [VNode [VScalar 10; VScalar 11]; VNode []; VNode [VScalar 12]]) 5 = ([(10, 5); (11, 6); (12, 7)], 3).
Proof. reflexivity. Qed.

(** ** Blocked matrices *)
Section Mat.
  Context {A : Type}.   (* a reference to a scalar entry *)
  (** a matrix of any nesting: a scalar; a row-major sparse matrix (BCRSMatrix, DiagonalMatrix, ScaledIdentityMatrix: N() is the number of rows, M() = m, stored entries (column, block)),
      with the block Block{} the code creates when there is no entry; or any other matrix (FieldMatrix, Matrix, MultiTypeBlockMatrix, ...), accessed by row and column index *)
  Inductive mtree := MScalar (a : A) | MSparse (m : nat) (rows : list (list (nat * mtree))) (dflt : mtree) | MDense (rows : list (list mtree)).
  (** flatMatrixForEach, foreach.hh:130-195: the calls f(entry, row, col) in order, and the pair returned; assertions (built without NDEBUG) abort; reading the uninitialised nRows is UB *)
  Fixpoint fmfe (t : mtree) (ro co : nat) : outcome (list (A * nat * nat) * (nat * nat)) :=
    match t with
    | MScalar a => Ok ([(a, ro, co)], (1, 1))
    | MSparse m rows dflt =>
        obind ((fix first (rows : list (list (nat * mtree))) := match rows with nil => fmfe dflt 0 0 | nil :: rs => first rs | ((_, b) :: _) :: _ => fmfe b 0 0 end) rows) (fun blk =>
        let '(_, (br, bc)) := blk in
        if (br =? 0) && (bc =? 0) then Throw EAbort else
        obind ((fix rloop (rows : list (list (nat * mtree))) (i : nat) (calls : list (A * nat * nat)) :=
          match rows with
          | nil => Ok calls
          | row :: rs =>
              obind ((fix cloop (row : list (nat * mtree)) (calls : list (A * nat * nat)) :=
                match row with
                | nil => Ok calls
                | (j, b) :: es => obind (fmfe b (ro + i * br) (co + j * bc)) (fun r => let '(cs, (nr, nc)) := r in if (nr =? br) && (nc =? bc) then cloop es (calls ++ cs) else Throw EAbort)
                end) row calls) (fun calls => rloop rs (S i) calls)
          end) rows 0 nil) (fun calls => Ok (calls, (length rows * br, m * bc))))
    | MDense rows =>
        (fix rloop (rows : list (list mtree)) (r c : nat) (nr : option nat) (calls : list (A * nat * nat)) :=
          match rows with
          | nil => Ok (calls, (r, c))
          | row :: rs =>
              obind ((fix cloop (row : list mtree) (c : nat) (nr : option nat) (calls : list (A * nat * nat)) :=
                match row with
                | nil => Ok (c, nr, calls)
                | b :: es => obind (fmfe b (ro + r) (co + c)) (fun x => let '(cs, (n1, n2)) := x in cloop es (c + n2) (Some n1) (calls ++ cs))
                end) row 0 nr calls) (fun x => let '(c', nr', calls') := x in
              match nr' with None => UB | Some n => rloop rs (r + n) c' nr' calls' end)
          end) rows 0 0 None nil
    end.

  (** Specification. [Dim t R C]: t is a well aligned blocked matrix with R scalar rows and C scalar columns *)
  Inductive Dim : mtree -> nat -> nat -> Prop :=
  | DimScalar a : Dim (MScalar a) 1 1
  | DimSparse m rows dflt br bc :
      (forall row j b, In row rows -> In (j, b) row -> j < m /\ Dim b br bc) ->
      ((forall row, In row rows -> row = nil) -> Dim dflt br bc) ->
      (forall row, In row rows -> NoDup (map fst row)) ->
      br <> 0 \/ bc <> 0 ->
      Dim (MSparse m rows dflt) (length rows * br) (m * bc)
  | DimDense rows hs ws : rows <> nil -> ws <> nil ->
      length rows = length hs ->
      (forall i row, nth_error rows i = Some row -> length row = length ws) ->
      (forall i j row b, nth_error rows i = Some row -> nth_error row j = Some b -> Dim b (nth i hs 0) (nth j ws 0)) ->
      Dim (MDense rows) (list_sum hs) (list_sum ws).
  (** [At t r c a]: the scalar a is stored in flat row r and flat column c of t *)
  Inductive At : mtree -> nat -> nat -> A -> Prop :=
  | AtScalar a : At (MScalar a) 0 0 a
  | AtSparse m rows dflt i row j b br bc r c a : nth_error rows i = Some row -> In (j, b) row -> Dim b br bc -> At b r c a -> At (MSparse m rows dflt) (i * br + r) (j * bc + c) a
  | AtDense rows i row j b r c a hs ws : nth_error rows i = Some row -> nth_error row j = Some b ->
      length hs = i -> length ws = j ->
      (forall i' row' b', i' < i -> nth_error rows i' = Some row' -> nth_error row' j = Some b' -> exists w, Dim b' (nth i' hs 0) w) ->
      (forall j' b', j' < j -> nth_error row j' = Some b' -> exists h, Dim b' h (nth j' ws 0)) ->
      At b r c a -> At (MDense rows) (list_sum hs + r) (list_sum ws + c) a.

  Section Ind.
    Variable P : mtree -> Prop.
    Hypothesis HS : forall a, P (MScalar a).
    Hypothesis HP : forall m rows dflt, (forall row j b, In row rows -> In (j, b) row -> P b) -> P dflt -> P (MSparse m rows dflt).
    Hypothesis HD : forall rows, (forall row b, In row rows -> In b row -> P b) -> P (MDense rows).
    Fixpoint mtree_ind' (t : mtree) : P t.
    Proof.
      destruct t as [a|m rows dflt|rows]; [apply HS| |].
      - apply HP; [|apply mtree_ind']. revert rows. fix go 1. intros [|row rows] row' j b H HB; [destruct H|destruct H as [H|H]].
        + rewrite <- H in HB. clear go H. revert row HB. fix go2 1. intros [|[j' b'] es] HB; [destruct HB|destruct HB as [HB|HB]]; [pose proof (f_equal snd HB) as EQ; cbn in EQ; rewrite <- EQ; apply mtree_ind'|apply (go2 es HB)].
        + apply (go rows row' j b H HB).
      - apply HD. revert rows. fix go 1. intros [|row rows] row' b H HB; [destruct H|destruct H as [H|H]].
        + rewrite <- H in HB. clear go H. revert row HB. fix go2 1. intros [|b' es] HB; [destruct HB|destruct HB as [HB|HB]]; [rewrite <- HB; apply mtree_ind'|apply (go2 es HB)].
        + apply (go rows row' b H HB).
    Defined.
  End Ind.

  Definition pos (x : A * nat * nat) : nat * nat := (snd (fst x), snd x).
  (** the calls are exactly those described by p, no position twice *)
  Definition CL (p : A -> nat -> nat -> Prop) (calls : list (A * nat * nat)) : Prop := (forall a r c, In (a, r, c) calls <-> p a r c) /\ NoDup (map pos calls).
  Lemma CL_ext p q l : (forall a r c, p a r c <-> q a r c) -> CL p l -> CL q l.
  Proof. intros E [H N]. split; auto. intros a r c. rewrite H. apply E. Qed.
  Lemma NoDup_app_intro {X} (l1 l2 : list X) : NoDup l1 -> NoDup l2 -> (forall x, In x l1 -> In x l2 -> False) -> NoDup (l1 ++ l2).
  Proof. induction l1 as [|x t IH]; intros H1 H2 D; cbn; auto. inversion H1; subst. constructor; [rewrite in_app_iff; intros [HI|HI]; [auto|eapply D; [left; reflexivity|auto]]|apply IH; auto; intros y Y1 Y2; eapply D; [right; eauto|auto]]. Qed.
  Lemma CL_app p q l1 l2 : CL p l1 -> CL q l2 -> (forall a a' r c, p a r c -> q a' r c -> False) -> CL (fun a r c => p a r c \/ q a r c) (l1 ++ l2).
  Proof.
    intros [H1 N1] [H2 N2] D. split; [intros a r c; rewrite in_app_iff, H1, H2; reflexivity|]. rewrite map_app. apply NoDup_app_intro; auto. intros [r c] X1 X2. apply in_map_iff in X1, X2. destruct X1 as ([[a r1] c1] & [= <- <-] & I1), X2 as ([[a' r2] c2] & [= -> ->] & I2).
    apply H1 in I1. apply H2 in I2. eauto.
  Qed.
  Lemma CL_nil (p : A -> nat -> nat -> Prop) : (forall a r c, ~ p a r c) -> CL p nil.
  Proof. intros H. split; [intros a r c; cbn; split; [tauto|apply H]|constructor]. Qed.
  Definition shifted (t : mtree) ro co (a : A) r c : Prop := exists r' c', r = ro + r' /\ c = co + c' /\ At t r' c' a.
  Definition good (t : mtree) : Prop := forall R C, Dim t R C -> (forall r c a, At t r c a -> r < R /\ c < C) /\ forall ro co, exists calls, fmfe t ro co = Ok (calls, (R, C)) /\ CL (shifted t ro co) calls.
  Lemma good_uniq t R C R' C' : good t -> Dim t R C -> Dim t R' C' -> R = R' /\ C = C'.
  Proof. intros G D D'. destruct (G R C D) as [_ G1], (G R' C' D') as [_ G2]. destruct (G1 0 0) as (cs & E1 & _), (G2 0 0) as (cs' & E2 & _). rewrite E1 in E2. injection E2. auto. Qed.
  (** intervals of a partition *)
  Lemma partition_disjoint (hs : list nat) i i' r r' : i < length hs -> i' < length hs -> i <> i' -> r < nth i hs 0 -> r' < nth i' hs 0 -> list_sum (firstn i hs) + r <> list_sum (firstn i' hs) + r'.
  Proof.
    revert i i'. induction hs as [|h t IH]; intros [|i] [|i'] H H' NE Hr Hr'; cbn in H, H'; try lia; cbn [firstn nth] in *; unfold list_sum; cbn [fold_right].
    - change (fold_right Init.Nat.add 0 (firstn i' t)) with (list_sum (firstn i' t)). lia.
    - change (fold_right Init.Nat.add 0 (firstn i t)) with (list_sum (firstn i t)). lia.
    - specialize (IH i i' ltac:(lia) ltac:(lia) ltac:(lia) Hr Hr'). unfold list_sum in IH. lia.
  Qed.
  Lemma partition_bound (hs : list nat) : forall i r, i < length hs -> r < nth i hs 0 -> list_sum (firstn i hs) + r < list_sum hs.
  Proof.
    induction hs as [|h t IH]; intros [|i] r H Hr; cbn in H; try lia; cbn [firstn nth] in *; unfold list_sum in *; cbn [fold_right]; [lia|]. specialize (IH i r ltac:(lia) Hr). lia.
  Qed.
  Lemma sum_firstn_S (hs : list nat) : forall i, i < length hs -> list_sum (firstn (S i) hs) = list_sum (firstn i hs) + nth i hs 0.
  Proof. induction hs as [|h t IH]; intros [|i] H; cbn in H; try lia; [cbn; lia|]. specialize (IH i ltac:(lia)). change (firstn (S (S i)) (h :: t)) with (h :: firstn (S i) t). unfold list_sum in *. cbn [fold_right firstn nth] in *. lia. Qed.
  Lemma nth_firstn_lt (l : list nat) n k : k < n -> nth k (firstn n l) 0 = nth k l 0.
  Proof. revert n k. induction l as [|x t IH]; intros [|n] [|k] H; cbn; try lia; auto. apply IH. lia. Qed.
  Lemma nth_ext_le (l l' : list nat) : length l = length l' -> (forall k, k < length l -> nth k l 0 = nth k l' 0) -> l = l'.
  Proof. intros L H. apply (nth_ext l l' 0 0); auto. Qed.

  Lemma all_good t : good t.
  Proof.
    induction t as [a|m rows dflt IH IHD|rows IH] using mtree_ind'; intros R C D.
    - inversion D; subst. split; [intros r c a' H; inversion H; subst; lia|]. intros ro co. eexists. split; [reflexivity|]. split; [|repeat constructor; intros []].
      intros b r c. cbn. split; [intros [[= <- <- <-]|[]]; exists 0, 0; repeat split; try lia; constructor|]. intros (r' & c' & -> & -> & H). inversion H; subst. left. do 2 f_equal; lia.
    - inversion D as [ |m' rows' dflt' br bc HE HD0 ND PN|]; subst.
      assert (AT : forall r c a, At (MSparse m rows dflt) r c a <-> exists i row j b r' c', nth_error rows i = Some row /\ In (j, b) row /\ At b r' c' a /\ r = i * br + r' /\ c = j * bc + c').
      { intros r c a. split.
        - intros H. inversion H as [|? ? ? i row j b br' bc' r' c' ? N IB DB AB|]; subst. assert (IR : In row rows) by (eapply nth_error_In; eauto). destruct (HE row j b IR IB) as [_ DB']. destruct (good_uniq b _ _ _ _ (IH row j b IR IB) DB DB') as [-> ->]. exists i, row, j, b, r', c'. repeat split; auto.
        - intros (i & row & j & b & r' & c' & N & IB & AB & -> & ->). econstructor; eauto. eapply HE; eauto. eapply nth_error_In; eauto. }
      split.
      + intros r c a H. apply AT in H. destruct H as (i & row & j & b & r' & c' & N & IB & AB & -> & ->). assert (IR : In row rows) by (eapply nth_error_In; eauto). destruct (HE row j b IR IB) as [JM DB]. destruct (IH row j b IR IB br bc DB) as [BD _]. destruct (BD _ _ _ AB). assert (i < length rows) by (apply nth_error_Some; congruence). split; nia.
      + intros ro co. cbn [fmfe].
        match goal with |- context [obind (?g rows) _] => assert (FB : exists cs, g rows = Ok (cs, (br, bc))) end.
        { clear AT D. match goal with |- exists cs, ?g rows = _ => set (first := g) end.
          assert (G : forall rs, (forall row j b, In row rs -> In (j, b) row -> good b /\ Dim b br bc) -> ((forall row, In row rs -> row = nil) -> good dflt /\ Dim dflt br bc) -> exists cs, first rs = Ok (cs, (br, bc))).
          { induction rs as [|[|[j b] es] rs IHr]; intros G1 G2.
            - destruct G2 as [GD DD]; [intros ? []|]. destruct (GD _ _ DD) as [_ X]. destruct (X 0 0) as (cs & E & _). exists cs. apply E.
            - apply IHr; [intros row j b I1 I2; eapply G1; eauto; right; auto|]. intros H. apply G2. intros row [<-|HI]; auto.
            - destruct (G1 ((j, b) :: es) j b) as [GD DD]; [left; auto|left; auto|]. destruct (GD _ _ DD) as [_ X]. destruct (X 0 0) as (cs & E & _). exists cs. apply E. }
          apply G; [intros row j b I1 I2; split; [eapply IH; eauto|eapply HE; eauto]|]. intros H. split; auto. }
        destruct FB as (cs0 & FB). rewrite FB. clear FB. cbn [obind]. replace ((br =? 0) && (bc =? 0)) with false by (destruct (Nat.eqb_spec br 0), (Nat.eqb_spec bc 0); auto; lia).
        set (rp := fun (i0 : nat) (rs : list (list (nat * mtree))) (a : A) r c => exists i row j b r' c', nth_error rs i = Some row /\ In (j, b) row /\ At b r' c' a /\ r = ro + ((i0 + i) * br + r') /\ c = co + (j * bc + c')).
        assert (BND : forall row j b r' c' a, In row rows -> In (j, b) row -> At b r' c' a -> r' < br /\ c' < bc). { intros row j b r' c' a I1 I2 H. destruct (HE row j b I1 I2) as [_ DB]. destruct (IH row j b I1 I2 br bc DB) as [BD _]. eapply BD; eauto. }
        match goal with |- context [obind (?g rows 0 nil) _] => set (rloop := g) end.
        assert (G : forall rs i0 calls, (forall row, In row rs -> In row rows) -> exists extra, rloop rs i0 calls = Ok (calls ++ extra) /\ CL (rp i0 rs) extra).
        { induction rs as [|row rs IHr]; intros i0 calls SUB.
          - exists nil. split; [subst rloop; cbn; now rewrite app_nil_r|]. apply CL_nil. intros a r c (i & row & j & b & r' & c' & N & _). destruct i; discriminate.
          - assert (IRW : In row rows) by (apply SUB; left; auto).
            match goal with |- exists extra, rloop (row :: rs) i0 calls = _ /\ _ =>
              let e := eval cbv beta iota delta [rloop] in (rloop (row :: rs) i0 calls) in
              match e with obind (?g row calls) _ => set (cloop := g) end end.
            assert (EQ : rloop (row :: rs) i0 calls = obind (cloop row calls) (fun calls => rloop rs (S i0) calls)) by reflexivity.
            set (cp := fun (es : list (nat * mtree)) (a : A) r c => exists j b r' c', In (j, b) es /\ At b r' c' a /\ r = ro + (i0 * br + r') /\ c = co + (j * bc + c')).
            assert (GC : forall es calls, (forall j b, In (j, b) es -> In (j, b) row) -> NoDup (map fst es) -> exists extra, cloop es calls = Ok (calls ++ extra) /\ CL (cp es) extra).
            { induction es as [|[j b] es IHe]; intros calls1 SE NDE.
              - exists nil. split; [subst cloop; cbn; now rewrite app_nil_r|]. apply CL_nil. intros a r c (j & b & r' & c' & [] & _).
              - assert (IB : In (j, b) row) by (apply SE; left; auto). destruct (HE row j b IRW IB) as [_ DB]. destruct (IH row j b IRW IB br bc DB) as [_ GB]. destruct (GB (ro + i0 * br) (co + j * bc)) as (cs & EB & CB).
                apply NoDup_cons_iff in NDE. cbn [map fst] in NDE. destruct NDE as [NI NDE']. destruct (IHe (calls1 ++ cs)) as (extra & EE & CE); [intros; apply SE; right; auto|auto|]. exists (cs ++ extra). split.
                + assert (EQ1 : cloop ((j, b) :: es) calls1 = obind (fmfe b (ro + i0 * br) (co + j * bc)) (fun r => let '(cs, (nr, nc)) := r in if (nr =? br) && (nc =? bc) then cloop es (calls1 ++ cs) else Throw EAbort)) by reflexivity.
                  rewrite EQ1, EB. cbn [obind]. rewrite !Nat.eqb_refl. cbn [andb]. rewrite EE, app_assoc. reflexivity.
                + eapply CL_ext; [|apply (CL_app _ _ _ _ CB CE)].
                  * intros a r c. unfold shifted, cp. split.
                    -- intros [(r' & c' & -> & -> & H)|(j' & b' & r' & c' & HI & H & -> & ->)]; [exists j, b, r', c'; repeat split; auto; try lia; left; auto|exists j', b', r', c'; repeat split; auto; right; auto].
                    -- intros (j' & b' & r' & c' & HI0 & HA & -> & ->); destruct HI0 as [E0|HI]; [injection E0 as <- <-; left; exists r', c'; repeat split; auto; lia|right; exists j', b', r', c'; auto].
                  * intros a a' r c (r' & c' & -> & E2 & H) (j' & b' & r2 & c2 & HI & H' & _ & E4). assert (NEJ : j <> j') by (intros ->; apply NI; apply (in_map fst) in HI; auto).
                    destruct (BND row j b r' c' a IRW IB H). destruct (BND row j' b' r2 c2 a' IRW (SE j' b' (or_intror HI)) H'). nia. }
            destruct (GC row calls (fun _ _ h => h) (ND row IRW)) as (e1 & E1 & C1). destruct (IHr (S i0) (calls ++ e1)) as (e2 & E2 & C2); [intros; apply SUB; right; auto|].
            exists (e1 ++ e2). split; [rewrite EQ, E1; cbn [obind]; rewrite E2, app_assoc; reflexivity|]. eapply CL_ext; [|apply (CL_app _ _ _ _ C1 C2)].
            + intros a r c. unfold cp, rp. split.
              * intros [(j & b & r' & c' & HI & H & -> & ->)|(i & row' & j & b & r' & c' & N & HI & H & -> & ->)]; [exists 0, row, j, b, r', c'|exists (S i), row', j, b, r', c']; repeat split; auto; try (f_equal; f_equal; lia); f_equal; nia.
              * intros ([|i] & row' & j & b & r' & c' & N & HI & H & -> & ->); cbn in N; [left; injection N as <-; exists j, b, r', c'; rewrite Nat.add_0_r; auto|right; exists i, row', j, b, r', c'; repeat split; auto; nia].
            + intros a a' r c (j & b & r' & c' & HI & H & -> & _) (i & row' & j' & b' & r2 & c2 & N & HI' & H' & E4 & _). destruct (BND row j b r' c' a IRW HI H). assert (IR' : In row' rows) by (apply SUB; right; eapply nth_error_In; eauto). destruct (BND row' j' b' r2 c2 a' IR' HI' H'). nia. }
        destruct (G rows 0 nil) as (extra & E & CE); auto. rewrite E. cbn [obind app]. eexists. split; [reflexivity|]. eapply CL_ext; [|exact CE]. intros a r c. unfold rp, shifted. split.
        * intros (i & row & j & b & r' & c' & N & HI & H & -> & ->). exists (i * br + r'), (j * bc + c'). repeat split; auto. apply AT. exists i, row, j, b, r', c'. auto.
        * intros (r' & c' & -> & -> & H). apply AT in H. destruct H as (i & row & j & b & r1 & c1 & N & HI & H & -> & ->). exists i, row, j, b, r1, c1. auto.
    - inversion D as [ | |rows' hs ws NR NW LH LW HE]; subst.
      assert (INI : forall i j row b, nth_error rows i = Some row -> nth_error row j = Some b -> good b) by (intros i j row b N1 N2; apply (IH row b); eapply nth_error_In; eauto).
      assert (AT : forall r c a, At (MDense rows) r c a <-> exists i row j b r' c', nth_error rows i = Some row /\ nth_error row j = Some b /\ At b r' c' a /\ r = list_sum (firstn i hs) + r' /\ c = list_sum (firstn j ws) + c').
      { intros r c a. split.
        - intros H. inversion H as [| |? i row j b r' c' ? hs' ws' N NB L1 L2 H1 H2 AB]; subst.
          assert (HL : length hs' < length hs) by (rewrite <- LH; apply nth_error_Some; congruence).
          assert (WL : length ws' < length ws) by (rewrite <- (LW _ _ N); apply nth_error_Some; congruence).
          assert (EH : hs' = firstn (length hs') hs).
          { apply nth_ext_le; [rewrite firstn_length_le; lia|]. intros i' Hi. rewrite nth_firstn_lt by auto. destruct (nth_error rows i') as [row'|] eqn:NR'; [|apply nth_error_None in NR'; lia]. destruct (nth_error row' (length ws')) as [b'|] eqn:NB'; [|apply nth_error_None in NB'; rewrite (LW _ _ NR') in NB'; lia].
            destruct (H1 i' row' b' Hi NR' NB') as [w DW]. destruct (good_uniq b' _ _ _ _ (INI _ _ _ _ NR' NB') DW (HE _ _ _ _ NR' NB')); auto. }
          assert (EW : ws' = firstn (length ws') ws).
          { apply nth_ext_le; [rewrite firstn_length_le; lia|]. intros j' Hj. rewrite nth_firstn_lt by auto. destruct (nth_error row j') as [b'|] eqn:NB'; [|apply nth_error_None in NB'; rewrite (LW _ _ N) in NB'; lia].
            destruct (H2 j' b' Hj NB') as [h DW]. destruct (good_uniq b' _ _ _ _ (INI _ _ _ _ N NB') DW (HE _ _ _ _ N NB')); auto. }
          exists (length hs'), row, (length ws'), b, r', c'. rewrite <- EH, <- EW. auto.
        - intros (i & row & j & b & r' & c' & N & NB & AB & -> & ->). assert (HL : i < length hs) by (rewrite <- LH; apply nth_error_Some; congruence). assert (WL : j < length ws) by (rewrite <- (LW _ _ N); apply nth_error_Some; congruence).
          apply (AtDense rows i row j b); auto; [rewrite firstn_length_le; lia|rewrite firstn_length_le; lia| |].
          + intros i' row' b' Hi N' NB'. rewrite nth_firstn_lt by auto. eauto.
          + intros j' b' Hj NB'. rewrite nth_firstn_lt by auto. eauto. }
      assert (BND : forall i j row b r c a, nth_error rows i = Some row -> nth_error row j = Some b -> At b r c a -> i < length hs /\ j < length ws /\ r < nth i hs 0 /\ c < nth j ws 0).
      { intros i j row b r c a N NB H. split; [rewrite <- LH; apply nth_error_Some; congruence|]. split; [rewrite <- (LW _ _ N); apply nth_error_Some; congruence|]. destruct (INI _ _ _ _ N NB _ _ (HE _ _ _ _ N NB)) as [BD _]. eapply BD; eauto. }
      split.
      + intros r c a H. apply AT in H. destruct H as (i & row & j & b & r' & c' & N & NB & AB & -> & ->). destruct (BND _ _ _ _ _ _ _ N NB AB) as (X1 & X2 & X3 & X4). split; apply partition_bound; auto.
      + intros ro co. cbn [fmfe]. match goal with |- context [?g rows 0 0 None nil = _] => set (rloop := g) end.
        set (rp := fun (i0 : nat) (a : A) r c => exists i row j b r' c', i0 <= i /\ nth_error rows i = Some row /\ nth_error row j = Some b /\ At b r' c' a /\ r = ro + (list_sum (firstn i hs) + r') /\ c = co + (list_sum (firstn j ws) + c')).
        assert (WP : 0 < length ws) by (destruct ws; cbn; [congruence|lia]).
        assert (G : forall rs i0 c0 nr calls, skipn i0 rows = rs -> i0 <= length rows -> (rs = nil -> c0 = list_sum ws) -> exists extra, rloop rs (list_sum (firstn i0 hs)) c0 nr calls = Ok (calls ++ extra, (list_sum hs, list_sum ws)) /\ CL (rp i0) extra).
        { induction rs as [|row rs IHr]; intros i0 c0 nr calls SK LE C0.
          - assert (length rows <= i0) by (apply (f_equal (@length _)) in SK; rewrite skipn_length in SK; cbn in SK; lia). exists nil. split; [subst rloop; cbn; rewrite app_nil_r, C0, firstn_all2 by (auto; lia); reflexivity|].
            apply CL_nil. intros a r c (i & row & j & b & r' & c' & Hi & N & _). assert (i < length rows) by (apply nth_error_Some; congruence). lia.
          - assert (LI : i0 < length rows) by (apply (f_equal (@length _)) in SK; rewrite skipn_length in SK; cbn in SK; lia).
            assert (N0 : nth_error rows i0 = Some row). { rewrite <- (firstn_skipn i0 rows), SK, nth_error_app2; rewrite firstn_length_le by lia; [|lia]. now rewrite Nat.sub_diag. }
            assert (SK' : skipn (S i0) rows = rs). { clear - SK. revert i0 SK. induction rows as [|x t IHt]; intros [|i0] SK; cbn in *; try discriminate; [injection SK; auto|]. apply IHt. auto. }
            match goal with |- exists extra, rloop (row :: rs) ?x c0 nr calls = _ /\ _ =>
              let e := eval cbv beta iota delta [rloop] in (rloop (row :: rs) x c0 nr calls) in
              match e with obind (?g row 0 nr calls) _ => set (cloop := g) end end.
            set (r0 := list_sum (firstn i0 hs)) in *.
            assert (EQ : rloop (row :: rs) r0 c0 nr calls = obind (cloop row 0 nr calls) (fun x => let '(c', nr', calls') := x in match nr' with None => UB | Some n => rloop rs (r0 + n) c' nr' calls' end)) by reflexivity.
            set (cp := fun (j0 : nat) (a : A) r c => exists j b r' c', j0 <= j /\ nth_error row j = Some b /\ At b r' c' a /\ r = ro + (r0 + r') /\ c = co + (list_sum (firstn j ws) + c')).
            assert (GC : forall es j0 nr calls, skipn j0 row = es -> j0 <= length ws -> (es = nil -> nr = Some (nth i0 hs 0)) -> exists extra, cloop es (list_sum (firstn j0 ws)) nr calls = Ok (list_sum ws, Some (nth i0 hs 0), calls ++ extra) /\ CL (cp j0) extra).
            { assert (LR := LW _ _ N0). induction es as [|b es IHe]; intros j0 nr1 calls1 SE LJ NRE.
              - assert (length row <= j0) by (apply (f_equal (@length _)) in SE; rewrite skipn_length in SE; cbn in SE; lia). exists nil. split; [subst cloop; cbn; rewrite app_nil_r, NRE, firstn_all2 by (auto; lia); reflexivity|].
                apply CL_nil. intros a r c (j & b & r' & c' & Hj & N & _). assert (j < length row) by (apply nth_error_Some; congruence). lia.
              - assert (LJ' : j0 < length row) by (apply (f_equal (@length _)) in SE; rewrite skipn_length in SE; cbn in SE; lia).
                assert (NB0 : nth_error row j0 = Some b). { rewrite <- (firstn_skipn j0 row), SE, nth_error_app2; rewrite firstn_length_le by lia; [|lia]. now rewrite Nat.sub_diag. }
                assert (SE' : skipn (S j0) row = es). { clear - SE. revert j0 SE. induction row as [|x t IHt]; intros [|j0] SE; cbn in *; try discriminate; [injection SE; auto|]. apply IHt. auto. }
                destruct (INI _ _ _ _ N0 NB0 _ _ (HE _ _ _ _ N0 NB0)) as [_ GB]. destruct (GB (ro + r0) (co + list_sum (firstn j0 ws))) as (cs & EB & CB).
                destruct (IHe (S j0) (Some (nth i0 hs 0)) (calls1 ++ cs)) as (extra & EE & CE); [auto|lia|auto|]. rewrite sum_firstn_S in EE by lia. exists (cs ++ extra). split.
                + assert (EQ1 : cloop (b :: es) (list_sum (firstn j0 ws)) nr1 calls1 = obind (fmfe b (ro + r0) (co + list_sum (firstn j0 ws))) (fun x => let '(cs, (n1, n2)) := x in cloop es (list_sum (firstn j0 ws) + n2) (Some n1) (calls1 ++ cs))) by reflexivity.
                  rewrite EQ1, EB. cbn [obind]. rewrite EE, app_assoc. reflexivity.
                + eapply CL_ext; [|apply (CL_app _ _ _ _ CB CE)].
                  * intros a r c. unfold shifted, cp. split.
                    -- intros [(r' & c' & -> & -> & H)|(j' & b' & r' & c' & HI & N & H & -> & ->)]; [exists j0, b, r', c'; repeat split; auto; lia|exists j', b', r', c'; repeat split; auto; lia].
                    -- intros (j' & b' & r' & c' & HI & N & H & -> & ->). destruct (Nat.eq_dec j' j0) as [->|NE]; [left; assert (b' = b) by congruence; subst b'; exists r', c'; repeat split; auto; lia|right; exists j', b', r', c'; repeat split; auto; lia].
                  * intros a a' r c (r' & c' & -> & E2 & H) (j' & b' & r2 & c2 & HI & N & H' & _ & E4). destruct (BND _ _ _ _ _ _ _ N0 NB0 H) as (X1 & X2 & X3 & X4). destruct (BND _ _ _ _ _ _ _ N0 N H') as (Y1 & Y2 & Y3 & Y4).
                    apply (partition_disjoint ws j0 j' c' c2); auto; lia. }
            destruct (GC row 0 nr calls eq_refl ltac:(lia)) as (e1 & E1 & C1). { intros ->. specialize (LW _ _ N0). cbn in LW. lia. }
            destruct (IHr (S i0) (list_sum ws) (Some (nth i0 hs 0)) (calls ++ e1)) as (e2 & E2 & C2); auto. rewrite sum_firstn_S in E2 by lia. fold r0 in E2.
            exists (e1 ++ e2). split; [rewrite EQ; cbn [firstn list_sum fold_right] in E1; change (list_sum (firstn 0 ws)) with 0 in E1; rewrite E1; cbn [obind]; rewrite E2, app_assoc; reflexivity|]. eapply CL_ext; [|apply (CL_app _ _ _ _ C1 C2)].
            + intros a r c. unfold cp, rp. split.
              * intros [(j & b & r' & c' & _ & HI & H & -> & ->)|(i & row' & j & b & r' & c' & Hi & N & HI & H & -> & ->)]; [exists i0, row, j, b, r', c'|exists i, row', j, b, r', c']; repeat split; auto; lia.
              * intros (i & row' & j & b & r' & c' & Hi & N & HI & H & -> & ->). destruct (Nat.eq_dec i i0) as [->|NE]; [left; assert (row' = row) by congruence; subst row'; exists j, b, r', c'; repeat split; auto; lia|right; exists i, row', j, b, r', c'; repeat split; auto; lia].
            + intros a a' r c (j & b & r' & c' & _ & HI & H & -> & _) (i & row' & j' & b' & r2 & c2 & Hi & N & HI' & H' & E4 & _). destruct (BND _ _ _ _ _ _ _ N0 HI H) as (X1 & X2 & X3 & X4). destruct (BND _ _ _ _ _ _ _ N HI' H') as (Y1 & Y2 & Y3 & Y4).
              apply (partition_disjoint hs i0 i r' r2); auto; lia. }
        destruct (G rows 0 0 None nil) as (extra & E & CE); [reflexivity|lia|congruence|]. change (list_sum (firstn 0 hs)) with 0 in E. rewrite E. cbn [app]. eexists. split; [reflexivity|]. eapply CL_ext; [|exact CE]. intros a r c. unfold rp, shifted. split.
        * intros (i & row & j & b & r' & c' & _ & N & HI & H & -> & ->). exists (list_sum (firstn i hs) + r'), (list_sum (firstn j ws) + c'). repeat split; auto. apply AT. exists i, row, j, b, r', c'. auto.
        * intros (r' & c' & -> & -> & H). apply AT in H. destruct H as (i & row & j & b & r1 & c1 & N & HI & H & -> & ->). exists i, row, j, b, r1, c1. repeat split; auto. lia.
  Qed.
  (** C42 (matrices): for a well aligned matrix the functor is called with every stored scalar, shifted by the offsets, at no flat position twice, inside the flat dimensions, which are returned *)
  Theorem C42_matrix t R C ro co : Dim t R C -> exists calls, fmfe t ro co = Ok (calls, (R, C)) /\
    (forall a r c, In (a, r, c) calls <-> exists r' c', r = ro + r' /\ c = co + c' /\ At t r' c' a) /\
    NoDup (map (fun x => (snd (fst x), snd x)) calls) /\
    (forall a r c, At t r c a -> r < R /\ c < C).
  Proof.
    intros D. destruct (all_good t R C D) as [B G]. destruct (G ro co) as (calls & E & I1 & ND). exists calls. split; [exact E|]. split; [exact I1|]. split; [exact ND|]. eauto.
  Qed.
  (** the flat dimensions of a matrix are unique *)
  Theorem C42_dimensions_unique t R C R' C' : Dim t R C -> Dim t R' C' -> R = R' /\ C = C'.
  Proof. apply good_uniq. apply all_good. Qed.
End Mat.
(** a 2 x 2 dense matrix of blocks of different sizes, one of them an empty sparse matrix of 1 x 2 blocks and one a sparse matrix with one entry *)
Definition ex_row (l : list nat) : @mtree nat := MDense [map MScalar l].
Definition ex_sparse : @mtree nat := MSparse 1 [[]] (ex_row [0; 0]).
Definition ex_one : @mtree nat := MSparse 2 [[(1, MScalar 7)]; []] (MScalar 0).
Definition ex_col : @mtree nat := MDense [[MScalar 1]; [MScalar 2]].
Definition ex_mat : @mtree nat := MDense [[ex_sparse; ex_row [5]]; [ex_one; ex_col]].
Example C42_matrix_nonvacuous : Dim ex_mat 3 3 /\ fmfe ex_mat 10 20 = Ok ([(5, 10, 22); (7, 11, 21); (1, 11, 22); (2, 12, 22)], (3, 3)).
Proof.
  split; [|reflexivity].
  assert (D1 : Dim (ex_row [0; 0]) 1 2). { apply (DimDense _ [1] [1; 1]); try discriminate; auto; [intros [|[|i]] row [= <-]; auto|]. intros [|[|i]] j row b [= <-] H; destruct j as [|[|[|j]]]; cbn in H; try discriminate; injection H as <-; constructor. }
  assert (D2 : Dim (ex_row [5]) 1 1). { apply (DimDense _ [1] [1]); try discriminate; auto; [intros [|[|i]] row [= <-]; auto|]. intros [|[|i]] j row b [= <-] H; destruct j as [|[|j]]; cbn in H; try discriminate; injection H as <-; constructor. }
  assert (D3 : Dim ex_sparse 1 2). { apply (DimSparse 1 [[]] _ 1 2); [intros row j b [<-|[]] []|auto|intros row [<-|[]]; constructor|auto]. }
  assert (D4 : Dim ex_one 2 2). { apply (DimSparse 2 [[(1, MScalar 7)]; []] _ 1 1); [|intros; constructor| |auto].
    - intros row j b [<-|[<-|[]]] H; [|destruct H]. destruct H as [[= <- <-]|[]]. split; [lia|constructor].
    - intros row [<-|[<-|[]]]; repeat constructor. intros []. }
  assert (D5 : Dim ex_col 2 1). { apply (DimDense _ [1; 1] [1]); try discriminate; auto; [intros [|[|[|i]]] row [= <-]; auto|]. intros [|[|[|i]]] j row b [= <-] H; destruct j as [|[|j]]; cbn in H; try discriminate; injection H as <-; constructor. }
  apply (DimDense _ [1; 2] [2; 1]); try discriminate; auto; [intros [|[|[|i]]] row [= <-]; auto|]. intros [|[|[|i]]] j row b [= <-] H; destruct j as [|[|[|j]]]; cbn in H; try discriminate; injection H as <-; auto.
Qed.
(** Deviation: a dense matrix with rows but without columns (Dune::Matrix(1, 0)) makes the code read an uninitialised variable *)
Theorem C42_no_columns_refuted : forall A ro co, fmfe (A := A) (MDense [nil]) ro co = UB.
Proof. reflexivity. Qed.
(** Deviation: the number of columns of a dense matrix without rows is lost: the returned dimensions are 0 x 0, whatever its number of columns; so are those of the sparse matrix around it, which aborts *)
Theorem C42_no_rows_refuted : forall A m ro co, fmfe (A := A) (MDense nil) ro co = Ok (nil, (0, 0)) /\ fmfe (A := A) (MSparse m [[(0, MDense nil)]] (MDense nil)) ro co = Throw EAbort.
Proof. split; reflexivity. Qed.
Print Assumptions C42_vector.
Print Assumptions C42_matrix.
Print Assumptions C42_dimensions_unique.
