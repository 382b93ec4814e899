(** * The Matlab writers (C65): dune/istl/io.hh:396-534 *)
From Coq Require Import Arith ZArith List Lia Bool.
From Verif Require Import Outcome MatUtils Foreach.
Import ListNotations.
Open Scope nat_scope.

Section Matlab.
  Context {A : Type}.   (* the scalar type *)
  (** a nested matrix with its values: a number, a FieldMatrix (n x m), or a BCRSMatrix with M columns whose blocks have the type bt; the stored blocks of each row in storage order *)
  Inductive bmv := NumV (a : A) | FieldV (n m : nat) (f : list (list A)) | CrsV (bt : btype) (M : nat) (rows : list (list (nat * bmv))).
  (** the sizes alone, for the queries of matrixutils.hh (MatUtils.v) *)
  Fixpoint shape (t : bmv) : bm :=
    match t with
    | NumV _ => Num
    | FieldV n m _ => Field n m
    | CrsV bt M rows => Crs bt M (map (map (fun e => (fst e, shape (snd e)))) rows)
    end.

  (** ** Model *)
  (** std::numeric_limits<int>::max() for a 32 bit int *)
  Definition int_max : Z := 2147483647%Z.
  (** conversion of a size_type to the parameter type int, io.hh:429, 454-455 *)
  Definition sint (z : Z) : Z := let r := (z mod 4294967296)%Z in if (r <=? int_max)%Z then r else (r - 4294967296)%Z.
  (** a line of the file: row number, column number, value *)
  Definition line : Type := Z * Z * A.
  (** writeMatrixToMatlabHelper for numbers, io.hh:410-418; rowOffset+1 is computed in int *)
  Definition wnum (a : A) (ro co : Z) : outcome (list line) :=
    if (ro <? int_max)%Z && (co <? int_max)%Z then Ok [((ro + 1)%Z, (co + 1)%Z, a)] else UB.
  (** the vector colOffset, io.hh:432-441, for m > 0 columns of widths cd 0, cd 1, ...: m numbers, the last width is not read *)
  Fixpoint coloffs (cd : nat -> Z) (i m : nat) (acc : Z) : list Z :=
    match m with O => nil | S m' => acc :: coloffs cd (S i) m' ((acc + cd i) mod W)%Z end.
  Section Loop.
  Context {X : Type} (rec : X -> Z -> Z -> outcome (list line)).   (* the recursive call *)
  (** inner loop over the columns of one row, io.hh:448-455; colOffset[index] outside of the vector is UB *)
  Fixpoint wcols (offs : list Z) (ro co : Z) (row : list (nat * X)) : outcome (list line) :=
    match row with
    | nil => Ok nil
    | (j, b) :: es =>
        match nth_error offs j with
        | None => UB
        | Some o => obind (rec b ro (sint ((co + o) mod W))) (fun l => obind (wcols offs ro co es) (fun l' => Ok (l ++ l')))
        end
    end.
  (** loop over the rows, io.hh:443-459; rd i is rowdim(matrix, i) *)
  Fixpoint wrows (rd : nat -> Z) (offs : list Z) (ro co : Z) (rows : list (list (nat * X))) (i : nat) (rowOffset : Z) : outcome (list line) :=
    match rows with
    | nil => Ok nil
    | row :: rs => obind (wcols offs (sint ((ro + rowOffset) mod W)) co row) (fun l =>
        obind (wrows rd offs ro co rs (S i) ((rowOffset + rd i) mod W)%Z) (fun l' => Ok (l ++ l')))
    end.
  End Loop.
  (** writeMatrixToMatlabHelper for matrices, io.hh:427-461.  With M() = 0 the loop bound M()-1 is SIZE_MAX and colOffset[1] is accessed: UB *)
  Fixpoint wm (t : bmv) (ro co : Z) : outcome (list line) :=
    match t with
    | NumV a => wnum a ro co
    | FieldV n m f =>
        if m =? 0 then UB else
        wrows wnum (fun i => Z.of_nat (rowdim_at (Field n m) i)) (coloffs (coldim_at (Field n m)) 0 m 0%Z) ro co (map (fun row => combine (seq 0 (length row)) row) f) 0 0%Z
    | CrsV bt M rows =>
        if M =? 0 then UB else
        wrows wm (fun i => Z.of_nat (rowdim_at (shape t) i)) (coloffs (coldim_at (shape t)) 0 M 0%Z) ro co rows 0 0%Z
    end.
  (** writeMatrixToMatlab, io.hh:481-491: the lines of the file *)
  Definition writeMatrixToMatlab (t : bmv) : outcome (list line) := wm t 0%Z 0%Z.
  (** writeVectorToMatlab, io.hh:494-534: the lines of the file, one number each; the block vectors are those of Foreach.v *)
  Fixpoint writeVectorToMatlab (v : @vtree A) : list A :=
    match v with
    | VScalar a => [a]
    | VNode l => (fix loop (l : list vtree) := match l with nil => nil | x :: t => writeVectorToMatlab x ++ loop t end) l
    end.

  (** ** Specification *)
  (** The C++ object: a FieldMatrix holds n rows of m numbers; the sizes of blocks with static size are those of the type; blocks of one block row have one height, blocks of
      one block column one width, the columns of a row are different; there are R scalar rows and C scalar columns.  This is flat_dims and distinct_cols of C25 with values. *)
  Definition typ (t : bmv) : btype := match t with NumV _ => TNum | FieldV n m _ => TField n m | CrsV bt _ _ => TCrs bt end.
  Inductive fields_ok : bmv -> Prop :=
  | FoNum a : fields_ok (NumV a)
  | FoField n m f : length f = n -> (forall row, In row f -> length row = m) -> fields_ok (FieldV n m f)
  | FoCrs bt M rows : (forall row j b, In row rows -> In (j, b) row -> typ b = bt /\ fields_ok b) -> fields_ok (CrsV bt M rows).
  (** every matrix at every level has a column *)
  Inductive has_columns : bmv -> Prop :=
  | HcNum a : has_columns (NumV a)
  | HcField n m f : m <> 0 -> has_columns (FieldV n m f)
  | HcCrs bt M rows : M <> 0 -> (forall row j b, In row rows -> In (j, b) row -> has_columns b) -> has_columns (CrsV bt M rows).
  (** the number a is stored at scalar row r and scalar column c; hs and ws are the heights of the block rows and the widths of the block columns *)
  Inductive stored : bmv -> nat -> nat -> A -> Prop :=
  | StNum a : stored (NumV a) 0 0 a
  | StField n m f i row j a : nth_error f i = Some row -> nth_error row j = Some a -> stored (FieldV n m f) i j a
  | StCrs bt M rows hs ws i j b r c a : length hs = length rows -> length ws = M ->
      (forall n m, bt = TField n m -> hs = repeat n (length rows) /\ ws = repeat m M) ->
      (forall i j b, i < length rows -> In (j, b) (nth i rows nil) -> j < M /\ flat_dims (shape b) (nth i hs 0) (nth j ws 0)) ->
      i < length rows -> In (j, b) (nth i rows nil) -> stored b r c a ->
      stored (CrsV bt M rows) (list_sum (firstn i hs) + r) (list_sum (firstn j ws) + c) a.

  Section Ind.
    Variable P : bmv -> Prop.
    Hypothesis HN : forall a, P (NumV a).
    Hypothesis HF : forall n m f, P (FieldV n m f).
    Hypothesis HC : forall bt M rows, (forall row j b, In row rows -> In (j, b) row -> P b) -> P (CrsV bt M rows).
    Fixpoint bmv_ind' (t : bmv) : P t.
    Proof.
      destruct t as [a|n m f|bt M rows]; [apply HN|apply HF|]. apply HC. revert rows. fix go 1. intros [|row rows] row' j b H HB; [destruct H|destruct H as [H|H]].
      - rewrite <- H in HB. clear go H. revert row HB. fix go2 1. intros [|[j' b'] es] HB; [destruct HB|destruct HB as [HB|HB]]; [pose proof (f_equal snd HB) as EQ; cbn in EQ; rewrite <- EQ; apply bmv_ind'|apply (go2 es HB)].
      - apply (go rows row' j b H HB).
    Defined.
  End Ind.

  (** ** Proofs *)
  Definition mk (x : A * nat * nat) : line := ((Z.of_nat (snd (fst x)) + 1)%Z, (Z.of_nat (snd x) + 1)%Z, fst (fst x)).
  Lemma sint_small z : (0 <= z <= int_max)%Z -> sint z = z.
  Proof. intros H. unfold sint. rewrite Z.mod_small by (unfold int_max in H; lia). destruct (Z.leb_spec z int_max); lia. Qed.
  Lemma int_max_W : (int_max < size_max)%Z. Proof. reflexivity. Qed.
  Lemma wnum_ok a r c : (Z.of_nat r < int_max)%Z -> (Z.of_nat c < int_max)%Z -> wnum a (Z.of_nat r) (Z.of_nat c) = Ok [mk (a, r, c)].
  Proof. intros H1 H2. unfold wnum. destruct (Z.ltb_spec (Z.of_nat r) int_max), (Z.ltb_spec (Z.of_nat c) int_max); try lia. reflexivity. Qed.
  Lemma coloffs_nth cd ws : (forall j, j < length ws -> cd j = Z.of_nat (nth j ws 0)) -> (Z.of_nat (list_sum ws) < W)%Z ->
    forall j, j < length ws -> nth_error (coloffs cd 0 (length ws) 0%Z) j = Some (Z.of_nat (list_sum (firstn j ws))).
  Proof.
    intros H HW.
    assert (G : forall m i, i + m = length ws -> forall j, j < m -> nth_error (coloffs cd i m (Z.of_nat (list_sum (firstn i ws)))) j = Some (Z.of_nat (list_sum (firstn (i + j) ws)))).
    { induction m as [|m IH]; intros i L j Hj; [lia|]. cbn [coloffs]. destruct j as [|j]; cbn [nth_error]; [now rewrite Nat.add_0_r|].
      rewrite H by lia. assert (E : (Z.of_nat (list_sum (firstn i ws)) + Z.of_nat (nth i ws O))%Z = Z.of_nat (list_sum (firstn (S i) ws))) by (rewrite sum_firstn_S by lia; lia).
      assert (LE : list_sum (firstn (S i) ws) <= list_sum ws). { rewrite <- (firstn_skipn (S i) ws) at 2. rewrite list_sum_app. lia. }
      rewrite E, Z.mod_small by lia. rewrite (IH (S i)) by lia. do 3 f_equal. f_equal. lia. }
    intros j Hj. apply (G (length ws) 0 eq_refl j Hj).
  Qed.
    Lemma list_sum_part (l : list nat) i : i < length l -> list_sum (firstn i l) + nth i l 0 <= list_sum l.
    Proof. intros H. rewrite <- sum_firstn_S by auto. rewrite <- (firstn_skipn (S i) l) at 2. rewrite list_sum_app. lia. Qed.
  (** the loops, for any description p of what the recursive calls write *)
  Section Loops.
    Context {X : Type} (rec : X -> Z -> Z -> outcome (list line)) (p : X -> nat -> nat -> A -> Prop) (hs ws : list nat) (cd : nat -> Z) (rd : nat -> Z).
    Variable rows : list (list (nat * X)).
    Variables ro co : nat.
    Hypothesis LH : length hs = length rows.
    Hypothesis HB : forall i j b, i < length rows -> In (j, b) (nth i rows nil) -> j < length ws /\ (forall r c a, p b r c a -> r < nth i hs 0 /\ c < nth j ws 0).
    Hypothesis ND : forall row, In row rows -> NoDup (map fst row).
    Hypothesis HCD : forall j, j < length ws -> cd j = Z.of_nat (nth j ws 0).
    Hypothesis HRD : forall i, i < length rows -> rd i = Z.of_nat (nth i hs 0).
    Hypothesis BR : (Z.of_nat (ro + list_sum hs) <= int_max)%Z.
    Hypothesis BC : (Z.of_nat (co + list_sum ws) <= int_max)%Z.
    Hypothesis REC : forall i j b ro' co', i < length rows -> In (j, b) (nth i rows nil) -> (Z.of_nat (ro' + nth i hs O) <= int_max)%Z -> (Z.of_nat (co' + nth j ws O) <= int_max)%Z ->
      exists calls, rec b (Z.of_nat ro') (Z.of_nat co') = Ok (map mk calls) /\ CL (fun a r c => exists r' c', r = ro' + r' /\ c = co' + c' /\ p b r' c' a) calls.
    Lemma wcols_ok i row es : i < length rows -> nth i rows nil = row -> (forall e, In e es -> In e row) -> NoDup (map fst es) ->
      exists calls, wcols rec (coloffs cd 0 (length ws) 0%Z) (Z.of_nat (ro + list_sum (firstn i hs))) (Z.of_nat co) es = Ok (map mk calls) /\
        CL (fun a r c => exists j b r' c', In (j, b) es /\ p b r' c' a /\ r = ro + list_sum (firstn i hs) + r' /\ c = co + list_sum (firstn j ws) + c') calls.
    Proof.
      pose proof int_max_W as IW. unfold size_max in IW. intros Hi ER. induction es as [|[j b] es IH]; intros SUB NDE.
      - exists nil. split; [reflexivity|]. apply CL_nil. intros a r c (j & b & r' & c' & [] & _).
      - inversion NDE as [|? ? NI NDE']; subst. destruct IH as (l2 & E2 & C2); [intros e HE; apply SUB; right; auto|auto|].
        assert (IB : In (j, b) (nth i rows nil)) by (apply SUB; left; auto). destruct (HB i j b Hi IB) as [Hj PB].
        assert (HSI := list_sum_part hs i ltac:(lia)). assert (WSJ := list_sum_part ws j Hj).
        destruct (REC i j b (ro + list_sum (firstn i hs)) (co + list_sum (firstn j ws)) Hi IB) as (l1 & E1 & C1); [lia|lia|].
        exists (l1 ++ l2). split.
        + cbn [wcols]. rewrite (coloffs_nth cd ws HCD) by (auto; lia). rewrite Z.mod_small by lia. rewrite sint_small by lia.
          replace (Z.of_nat co + Z.of_nat (list_sum (firstn j ws)))%Z with (Z.of_nat (co + list_sum (firstn j ws))) by lia. rewrite E1. cbn [obind]. rewrite E2. cbn [obind]. now rewrite map_app.
        + eapply CL_ext; [|apply (CL_app _ _ _ _ C1 C2)].
          * intros a r c. cbn [In]. split.
            -- intros [(r' & c' & -> & -> & H)|(j' & b' & r' & c' & HI & H & -> & ->)]; [exists j, b, r', c'; auto|exists j', b', r', c'; auto].
            -- intros (j' & b' & r' & c' & [[= <- <-]|HI] & HP & -> & ->); [left; exists r', c'; auto|right; exists j', b', r', c'; auto].
          * intros a a' r c (r' & c' & -> & -> & H) (j' & b' & r2 & c2 & HI & H' & _ & E4).
            assert (IB' : In (j', b') (nth i rows nil)) by (apply SUB; right; auto). destruct (HB i j' b' Hi IB') as [Hj' PB']. destruct (PB _ _ _ H), (PB' _ _ _ H').
            assert (NE : j <> j') by (intros <-; apply NI; apply in_map_iff; exists (j, b'); auto).
            apply (partition_disjoint ws j j' c' c2); auto; lia.
    Qed.
    Lemma wrows_ok : exists calls, wrows rec rd (coloffs cd 0 (length ws) 0%Z) (Z.of_nat ro) (Z.of_nat co) rows 0 0%Z = Ok (map mk calls) /\
      CL (fun a r c => exists i j b r' c', i < length rows /\ In (j, b) (nth i rows nil) /\ p b r' c' a /\ r = ro + list_sum (firstn i hs) + r' /\ c = co + list_sum (firstn j ws) + c') calls.
    Proof.
      pose proof int_max_W as IW. unfold size_max in IW.
      assert (G : forall rs i0, skipn i0 rows = rs -> i0 <= length rows -> exists calls, wrows rec rd (coloffs cd 0 (length ws) 0%Z) (Z.of_nat ro) (Z.of_nat co) rs i0 (Z.of_nat (list_sum (firstn i0 hs))) = Ok (map mk calls) /\
        CL (fun a r c => exists i j b r' c', i0 <= i < length rows /\ In (j, b) (nth i rows nil) /\ p b r' c' a /\ r = ro + list_sum (firstn i hs) + r' /\ c = co + list_sum (firstn j ws) + c') calls).
      { induction rs as [|row rs IH]; intros i0 SK LE.
        - assert (length rows <= i0) by (apply (f_equal (@length _)) in SK; rewrite skipn_length in SK; cbn in SK; lia). exists nil. split; [reflexivity|]. apply CL_nil. intros a r c (i & j & b & r' & c' & Hi & _). lia.
        - assert (LI : i0 < length rows) by (apply (f_equal (@length _)) in SK; rewrite skipn_length in SK; cbn in SK; lia).
          assert (N0 : nth i0 rows nil = row). { rewrite <- (firstn_skipn i0 rows), SK, app_nth2; rewrite firstn_length_le by lia; [|lia]. now rewrite Nat.sub_diag. }
          assert (SK' : skipn (S i0) rows = rs). { clear - SK. revert i0 SK. induction rows as [|x t IHt]; intros [|i0] SK; cbn in *; try discriminate; [injection SK; auto|]. apply IHt. auto. }
          assert (HSI := list_sum_part hs i0 ltac:(lia)).
          destruct (wcols_ok i0 row row LI N0) as (l1 & E1 & C1); [auto|apply ND; rewrite <- N0; apply nth_In; auto|].
          destruct (IH (S i0) SK' ltac:(lia)) as (l2 & E2 & C2). rewrite sum_firstn_S in E2 by lia.
          exists (l1 ++ l2). split.
          + cbn [wrows]. rewrite (Z.mod_small (Z.of_nat ro + _)) by lia. rewrite sint_small by lia. rewrite <- Nat2Z.inj_add, E1. cbn [obind].
            rewrite HRD by auto. rewrite <- Nat2Z.inj_add. rewrite Z.mod_small by lia. rewrite E2. cbn [obind]. now rewrite map_app.
          + eapply CL_ext; [|apply (CL_app _ _ _ _ C1 C2)].
            * intros a r c. split.
              -- intros [(j & b & r' & c' & HI & H & -> & ->)|(i & j & b & r' & c' & Hi & HI & H & -> & ->)]; [exists i0, j, b, r', c'; rewrite N0; repeat split; auto; lia|exists i, j, b, r', c'; repeat split; auto; lia].
              -- intros (i & j & b & r' & c' & Hi & HI & H & -> & ->). destruct (Nat.eq_dec i i0) as [EI|NE]; [subst i; left; rewrite N0 in HI; exists j, b, r', c'; auto|right; exists i, j, b, r', c'; repeat split; auto; lia].
            * intros a a' r c (j & b & r' & c' & HI & H & -> & ->) (i & j' & b' & r2 & c2 & Hi & HI' & H' & E4 & _). rewrite <- N0 in HI. destruct (HB i0 j b LI HI) as [_ PB]. destruct (HB i j' b' ltac:(lia) HI') as [_ PB']. destruct (PB _ _ _ H), (PB' _ _ _ H').
              apply (partition_disjoint hs i0 i r' r2); auto; lia. }
      destruct (G rows 0 eq_refl ltac:(lia)) as (calls & E & C). exists calls. split; [exact E|]. eapply CL_ext; [|exact C]. intros a r c. split; intros (i & j & b & r' & c' & H); exists i, j, b, r', c'; intuition lia.
    Qed.
  End Loops.
  Lemma nth_shape (rows : list (list (nat * bmv))) i : nth i (map (map (fun e : nat * bmv => (fst e, shape (snd e)))) rows) nil = map (fun e => (fst e, shape (snd e))) (nth i rows nil).
  Proof. change (@nil (nat * bm)) with (map (fun e : nat * bmv => (fst e, shape (snd e))) nil) at 1. apply map_nth. Qed.
  Lemma in_shape (row : list (nat * bmv)) j b : In (j, b) row -> In (j, shape b) (map (fun e => (fst e, shape (snd e))) row).
  Proof. intros H. apply in_map_iff. exists (j, b). auto. Qed.
  Lemma fst_shape (row : list (nat * bmv)) : map fst (map (fun e => (fst e, shape (snd e))) row) = map fst row.
  Proof. rewrite map_map. apply map_ext. auto. Qed.
  Lemma repeat_sum k n : list_sum (firstn k (repeat 1 n)) = Nat.min k n.
  Proof. revert n. induction k as [|k IH]; intros [|n]; cbn; auto. Qed.

  Lemma crs_unique bt M (rows : list (list (nat * bm))) hs ws hs' ws' :
    (forall row e, In row rows -> In e row -> forall h w h' w', flat_dims (snd e) h w -> flat_dims (snd e) h' w' -> no_empty_row (snd e) -> no_empty_col (snd e) -> h = h' /\ w = w') ->
    length hs = length rows -> length ws = M -> length hs' = length rows -> length ws' = M ->
    (forall n m, bt = TField n m -> hs = repeat n (length rows) /\ ws = repeat m M) ->
    (forall n m, bt = TField n m -> hs' = repeat n (length rows) /\ ws' = repeat m M) ->
    (forall i j b, i < length rows -> In (j, b) (nth i rows nil) -> j < M /\ flat_dims b (nth i hs 0) (nth j ws 0)) ->
    (forall i j b, i < length rows -> In (j, b) (nth i rows nil) -> j < M /\ flat_dims b (nth i hs' 0) (nth j ws' 0)) ->
    no_empty_row (Crs bt M rows) -> no_empty_col (Crs bt M rows) -> hs = hs' /\ ws = ws'.
  Proof.
    intros U L1 L2 L3 L4 HS HS' HB HB' NR NC. destruct bt as [|n m|bt'].
    2: { destruct (HS n m eq_refl) as [-> ->], (HS' n m eq_refl) as [-> ->]. auto. }
    1,2: inversion NR as [| | |? ? ? NR']; subst; inversion NC as [| | |? ? ? NC1 NC2]; subst.
    1,2: (split; apply nth_ext_le; [congruence| |congruence|]).
    1,3: (intros i Hi; assert (IR : In (nth i rows nil) rows) by (apply nth_In; lia); destruct (NR' (nth i rows nil) IR) as [NE NE'];
       assert (EX : exists e, In e (nth i rows nil)) by (destruct (nth i rows nil) as [|e es]; [contradiction|exists e; left; auto]); destruct EX as ([j b] & IE);
       destruct (HB i j b ltac:(lia) IE) as [_ D1]; destruct (HB' i j b ltac:(lia) IE) as [_ D2];
       apply (U (nth i rows nil) (j, b) IR IE _ _ _ _ D1 D2); [apply (NE' (j, b)); auto|apply (NC2 (nth i rows nil) (j, b)); auto]).
    1,2: (intros j Hj; destruct (NC1 j Hj) as (row & IR & IJ); apply in_map_iff in IJ; destruct IJ as ([j' b] & EJ & IB); cbn in EJ; subst j'; destruct (In_nth _ _ nil IR) as (i & Hi & ER);
       destruct (HB i j b Hi) as [_ D1]; [rewrite ER; auto|]; destruct (HB' i j b Hi) as [_ D2]; [rewrite ER; auto|];
       apply (U row (j, b) IR IB _ _ _ _ D1 D2); [apply (NR' row IR); auto|apply (NC2 row (j, b)); auto]).
  Qed.
  Lemma flat_unique b : forall h w h' w', flat_dims b h w -> flat_dims b h' w' -> no_empty_row b -> no_empty_col b -> h = h' /\ w = w'.
  Proof.
    induction b as [|n m|bt M rows IH] using bm_rect'; intros h w h' w' D D' NR NC; [inversion D; inversion D'; subst; auto|inversion D; inversion D'; subst; auto|].
    inversion D as [| |? ? ? hs ws L1 L2 HS HB]; subst. inversion D' as [| |? ? ? hs' ws' L1' L2' HS' HB']; subst.
    destruct (crs_unique bt (length ws) rows hs ws hs' ws') as [<- <-]; auto.
    intros row e HR HE h w h' w' X1 X2 X3 X4. rewrite Forall_forall in IH. specialize (IH row HR). rewrite Forall_forall in IH. eapply (IH e HE); eauto.
  Qed.
  Notation rshape rows := (map (map (fun e : nat * bmv => (fst e, shape (snd e)))) rows).
  Lemma stored_crs bt M (rows : list (list (nat * bmv))) hs ws : length hs = length rows -> length ws = M ->
    (forall n m, bt = TField n m -> hs = repeat n (length rows) /\ ws = repeat m M) ->
    (forall i j b, i < length rows -> In (j, b) (nth i rows nil) -> j < M /\ flat_dims (shape b) (nth i hs 0) (nth j ws 0)) ->
    no_empty_row (Crs bt M (rshape rows)) -> no_empty_col (Crs bt M (rshape rows)) ->
    forall r c a, stored (CrsV bt M rows) r c a <-> exists i j b r' c', i < length rows /\ In (j, b) (nth i rows nil) /\ stored b r' c' a /\ r = list_sum (firstn i hs) + r' /\ c = list_sum (firstn j ws) + c'.
  Proof.
    intros LH LW HS HB NR NC r c a. split.
    - intros H. inversion H as [| |? ? ? hs' ws' i j b r' c' ? L1 L2 HS' HB' Hi HI HST E1 E2 E3 E4]. clear H.
      assert (EQ : hs' = hs /\ ws' = ws).
      { assert (HX : forall (hs ws : list nat), (forall i j b, i < length rows -> In (j, b) (nth i rows nil) -> j < M /\ flat_dims (shape b) (nth i hs 0) (nth j ws 0)) ->
          forall i j b, i < length rows -> In (j, b) (nth i (rshape rows) nil) -> j < M /\ flat_dims b (nth i hs 0) (nth j ws 0)).
        { intros hs0 ws0 HB0 i1 j1 b1 Hi1 HI1. rewrite nth_shape in HI1. apply in_map_iff in HI1. destruct HI1 as ([j2 b2] & Q2 & HI2). injection Q2 as Q3 Q4. cbn in Q3, Q4. subst. apply (HB0 i1 j1 b2); auto. }
        apply (crs_unique bt M (rshape rows)); rewrite ?map_length; auto. intros row e _ _ h w h2 w2. apply flat_unique. }
      destruct EQ; subst hs' ws'. exists i, j, b, r', c'. auto.
    - intros (i & j & b & r' & c' & Hi & HI & HST & -> & ->). econstructor; eauto.
  Qed.
  Lemma sub_ok bt M (rows : list (list (nat * bmv))) : (forall row j b, In row rows -> In (j, b) row -> typ b = bt /\ fields_ok b) ->
    no_empty_row (Crs bt M (rshape rows)) -> no_empty_col (Crs bt M (rshape rows)) -> distinct_cols (Crs bt M (rshape rows)) ->
    forall i j b, i < length rows -> In (j, b) (nth i rows nil) -> fields_ok b /\ distinct_cols (shape b) /\ no_empty_row (shape b) /\ no_empty_col (shape b).
  Proof.
    intros FO' NR NC DC i j b Hi HI. assert (IR : In (nth i rows nil) rows) by (apply nth_In; auto). destruct (FO' _ _ _ IR HI) as [TY FOB]. split; [auto|]. split; [|split].
    2,3: destruct bt as [|n m|bt']; [destruct b; cbn in TY |- *; try discriminate; constructor|destruct b; cbn in TY |- *; try discriminate; constructor|].
    2: { inversion NR as [| | |? ? ? K]; subst. destruct (K (map (fun e : nat * bmv => (fst e, shape (snd e))) (nth i rows nil))) as [_ K']; [apply in_map; auto|]. apply (K' (j, shape b)). apply in_shape; auto. }
    2: { inversion NC as [| | |? ? ? _ K]; subst. apply (K (map (fun e : nat * bmv => (fst e, shape (snd e))) (nth i rows nil)) (j, shape b)); [apply in_map; auto|apply in_shape; auto]. }
    inversion DC as [| |? ? ? DC']; subst. destruct (DC' (map (fun e : nat * bmv => (fst e, shape (snd e))) (nth i rows nil))) as [_ K]; [apply in_map; auto|]. apply (K (j, shape b)). apply in_shape; auto.
  Qed.
  Definition fine (t : bmv) : Prop := forall R C, flat_dims (shape t) R C -> fields_ok t -> has_columns t -> no_empty_row (shape t) -> no_empty_col (shape t) -> distinct_cols (shape t) -> (Z.of_nat C <= int_max)%Z ->
    (forall r c a, stored t r c a -> r < R /\ c < C) /\
    forall ro co, (Z.of_nat (ro + R) <= int_max)%Z -> (Z.of_nat (co + C) <= int_max)%Z ->
      exists calls, wm t (Z.of_nat ro) (Z.of_nat co) = Ok (map mk calls) /\ CL (fun a r c => exists r' c', r = ro + r' /\ c = co + c' /\ stored t r' c' a) calls.
  Lemma all_fine t : fine t.
  Proof.
    induction t as [a|n m f|bt M rows IH] using bmv_ind'; intros R C FD FO HC NR NC DC CB; pose proof int_max_W as IW.
    - inversion FD; subst. split; [intros r c a' H; inversion H; subst; lia|]. intros ro co HR HC'. exists [(a, ro, co)]. split; [apply wnum_ok; lia|]. split; [|repeat constructor; intros []].
      intros b r c. cbn. split; [intros [[= <- <- <-]|[]]; exists 0, 0; repeat split; try lia; constructor|]. intros (r' & c' & -> & -> & H). inversion H; subst. left. do 2 f_equal; lia.
    - cbn [shape] in *. inversion FD; subst. inversion FO as [|? ? ? LF LR|]; subst. inversion HC as [|? ? ? NM|]; subst.
      assert (ST : forall r c a, stored (FieldV (length f) C f) r c a <-> exists row, nth_error f r = Some row /\ nth_error row c = Some a).
      { intros r c a. split; [intros H; inversion H; subst; eauto|intros (row & H1 & H2); econstructor; eauto]. }
      split.
      + intros r c a H. apply ST in H. destruct H as (row & H1 & H2). split; [apply nth_error_Some; congruence|]. rewrite <- (LR row) by (eapply nth_error_In; eauto). apply nth_error_Some; congruence.
      + intros ro co HR HC'. cbn [wm]. destruct (Nat.eqb_spec C 0) as [E0|_]; [contradiction|].
        set (g := fun row : list A => combine (seq 0 (length row)) row).
        assert (NG : forall i, nth i (map g f) nil = g (nth i f nil)) by (intros i; change (@nil (nat * A)) with (g nil) at 1; apply map_nth).
        assert (IG : forall row j b, In (j, b) (g row) <-> nth_error row j = Some b).
        { intros row j b. unfold g. assert (G : forall row s, In (j, b) (combine (seq s (length row)) row) <-> s <= j /\ nth_error row (j - s) = Some b).
          { clear. induction row as [|x t IHt]; intros s; cbn [length seq combine In]; [split; [intros []|intros [_ H]; destruct (j - s); discriminate]|]. rewrite IHt. split.
            - intros [[= <- <-]|[H1 H2]]; [rewrite Nat.sub_diag; auto|]. split; [lia|]. replace (j - s) with (S (j - S s)) by lia. auto.
            - intros [H1 H2]. destruct (Nat.eq_dec s j) as [<-|NE]; [left; rewrite Nat.sub_diag in H2; cbn in H2; congruence|right]. replace (j - s) with (S (j - S s)) in H2 by lia. split; [lia|auto]. }
          rewrite G, Nat.sub_0_r. split; [tauto|intros H; split; [lia|auto]]. }
        assert (FG : forall row, map fst (g row) = seq 0 (length row)).
        { intros row. unfold g. generalize 0. induction row as [|x t IHt]; intros s; cbn; auto. now rewrite IHt. }
        assert (L1 : length (repeat 1 C) = C) by apply repeat_length.
        assert (S1 : list_sum (repeat 1 C) = C) by (rewrite list_sum_repeat; lia). assert (S2 : list_sum (repeat 1 (length f)) = length f) by (rewrite list_sum_repeat; lia).
        destruct (wrows_ok wnum (fun (b : A) r c a => r = 0 /\ c = 0 /\ a = b) (repeat 1 (length f)) (repeat 1 C) (coldim_at (Field (length f) C)) (fun i => Z.of_nat (rowdim_at (Field (length f) C) i)) (map g f) ro co) as (calls & E & CLS).
        * now rewrite repeat_length, map_length.
        * rewrite map_length. intros i j b Hi HI. rewrite NG in HI. apply IG in HI. assert (HJ : j < C). { rewrite <- (LR (nth i f nil)) by (apply nth_In; auto). apply nth_error_Some; congruence. }
          rewrite L1. split; [auto|]. intros r c a (-> & -> & _). rewrite !(nth_indep _ 0 1) by (rewrite repeat_length; auto). rewrite !nth_repeat. lia.
        * intros row HI. apply in_map_iff in HI. destruct HI as (r0 & <- & _). rewrite FG. apply seq_NoDup.
        * rewrite L1. intros j Hj. cbn [coldim_at]. rewrite (nth_indep _ 0 1) by (rewrite repeat_length; auto). now rewrite nth_repeat.
        * rewrite map_length. intros i Hi. cbn [rowdim_at]. rewrite (nth_indep _ 0 1) by (rewrite repeat_length; auto). now rewrite nth_repeat.
        * rewrite S2. lia.
        * rewrite S1. lia.
        * rewrite map_length. intros i j b ro' co' Hi HI B1 B2. rewrite NG in HI. apply IG in HI. assert (HJ : j < C). { rewrite <- (LR (nth i f nil)) by (apply nth_In; auto). apply nth_error_Some; congruence. }
          rewrite (nth_indep _ 0 1), nth_repeat in B1 by (rewrite repeat_length; auto). rewrite (nth_indep _ 0 1), nth_repeat in B2 by (rewrite repeat_length; auto).
          exists [(b, ro', co')]. split; [apply wnum_ok; lia|]. split; [|repeat constructor; intros []]. intros a r c. cbn. split.
          -- intros [[= <- <- <-]|[]]. exists 0, 0. repeat split; lia.
          -- intros (r' & c' & -> & -> & -> & -> & ->). left. do 2 f_equal; lia.
        * rewrite L1 in E. exists calls. split; [exact E|]. eapply CL_ext; [|exact CLS]. intros a r c. rewrite map_length. split.
          -- intros (i & j & b & r' & c' & Hi & HI & (-> & -> & ->) & -> & ->). rewrite NG in HI. apply IG in HI.
             assert (HJ : j < C). { rewrite <- (LR (nth i f nil)) by (apply nth_In; auto). apply nth_error_Some; congruence. }
             exists i, j. rewrite !repeat_sum. split; [lia|]. split; [lia|]. apply ST. exists (nth i f nil). split; [apply nth_error_nth'; auto|auto].
          -- intros (r' & c' & -> & -> & H). apply ST in H. destruct H as (row & H1 & H2). assert (Hr : r' < length f) by (apply nth_error_Some; congruence).
             assert (HJ : c' < C). { rewrite <- (LR row) by (eapply nth_error_In; eauto). apply nth_error_Some; congruence. }
             exists r', c', a, 0, 0. rewrite NG, !repeat_sum. rewrite (nth_error_nth f r' nil H1). repeat split; auto; try lia. apply IG; auto.
    - cbn [shape] in FD, NR, NC, DC. inversion FD as [| |? ? ? hs ws LH LW HS HE EBT ER]; subst. inversion FO as [| |? ? ? FO']; subst. inversion HC as [| |? ? ? NM HC']; subst.
      rewrite map_length in LH. rewrite map_length in HS, HE.
      assert (HB : forall i j b, i < length rows -> In (j, b) (nth i rows nil) -> j < length ws /\ flat_dims (shape b) (nth i hs 0) (nth j ws 0)).
      { intros i j b Hi HI. apply HE; auto. rewrite nth_shape. apply in_shape; auto. }
      assert (RD : forall i, i < length rows -> rowdim_at (shape (CrsV bt (length ws) rows)) i = nth i hs 0).
      { intros i Hi. cbn [shape]. apply (C25_rowdim_at bt (length ws) _ hs ws i); rewrite ?map_length; auto. }
      assert (CD : forall j, j < length ws -> coldim_at (shape (CrsV bt (length ws) rows)) j = Z.of_nat (nth j ws 0)).
      { intros j Hj. cbn [shape]. apply (C25_coldim_at bt (length ws) _ hs ws j); rewrite ?map_length; auto. pose proof (list_sum_part ws j Hj). lia. }
      assert (ST := stored_crs bt (length ws) rows hs ws LH eq_refl HS HB NR NC).
      assert (PB : forall i j b, i < length rows -> In (j, b) (nth i rows nil) -> fine b /\ fields_ok b /\ has_columns b /\ distinct_cols (shape b) /\ no_empty_row (shape b) /\ no_empty_col (shape b)).
      { intros i j b Hi HI. assert (IR : In (nth i rows nil) rows) by (apply nth_In; auto). destruct (sub_ok bt (length ws) rows FO' NR NC DC i j b Hi HI) as (X1 & X2 & X3 & X4). split; [eauto|]. split; [auto|]. split; [eauto|]. auto. }
      assert (BD : forall i j b, i < length rows -> In (j, b) (nth i rows nil) -> forall r c a, stored b r c a -> r < nth i hs 0 /\ c < nth j ws 0).
      { intros i j b Hi HI. destruct (PB i j b Hi HI) as (F & X1 & X2 & X3 & X4 & X5). destruct (HB i j b Hi HI) as [HJ D]. assert (HWJ := list_sum_part ws j HJ). destruct (F _ _ D X1 X2 X4 X5 X3) as [K _]; [lia|exact K]. }
      split.
      + intros r c a H. apply ST in H. destruct H as (i & j & b & r' & c' & Hi & HI & H & -> & ->). destruct (BD i j b Hi HI _ _ _ H). destruct (HB i j b Hi HI) as [HJ _]. split; apply partition_bound; auto; lia.
      + intros ro co HR HCC. cbn [wm]. destruct (Nat.eqb_spec (length ws) 0) as [E0|_]; [contradiction|].
        destruct (wrows_ok wm stored hs ws (coldim_at (shape (CrsV bt (length ws) rows))) (fun i => Z.of_nat (rowdim_at (shape (CrsV bt (length ws) rows)) i)) rows ro co) as (calls & E & CLS); auto.
        * intros i j b Hi HI. split; [apply (HB i j b Hi HI)|apply (BD i j b Hi HI)].
        * intros row HI. inversion DC as [| |? ? ? DC']; subst. destruct (DC' (map (fun e : nat * bmv => (fst e, shape (snd e))) row)) as [K _]; [apply in_map; auto|]. rewrite fst_shape in K. exact K.
        * intros i j b ro' co' Hi HI B1 B2. destruct (PB i j b Hi HI) as (F & X1 & X2 & X3 & X4 & X5). destruct (HB i j b Hi HI) as [HJ D]. assert (HWJ := list_sum_part ws j HJ). destruct (F _ _ D X1 X2 X4 X5 X3) as [_ K]; [lia|]. apply K; auto.
        * exists calls. split; [exact E|]. eapply CL_ext; [|exact CLS]. intros a r c. split.
          -- intros (i & j & b & r' & c' & Hi & HI & H & -> & ->). exists (list_sum (firstn i hs) + r'), (list_sum (firstn j ws) + c'). split; [lia|]. split; [lia|]. apply ST. exists i, j, b, r', c'. auto.
          -- intros (r' & c' & -> & -> & H). apply ST in H. destruct H as (i & j & b & r1 & c1 & Hi & HI & H & -> & ->). exists i, j, b, r1, c1. repeat split; auto; lia.
  Qed.
  (** C65 (matrices): every stored number is written on exactly one line, which holds its scalar row and column, counted from 1; and nothing else is written *)
  Theorem C65_matrix t R C : flat_dims (shape t) R C -> distinct_cols (shape t) -> fields_ok t ->
    has_columns t -> no_empty_row (shape t) -> no_empty_col (shape t) -> (Z.of_nat R <= int_max)%Z -> (Z.of_nat C <= int_max)%Z ->
    exists lines, writeMatrixToMatlab t = Ok lines /\
      (forall r c a, In (r, c, a) lines <-> exists r' c', stored t r' c' a /\ r' < R /\ c' < C /\ r = (Z.of_nat r' + 1)%Z /\ c = (Z.of_nat c' + 1)%Z) /\
      NoDup (map (fun l => fst l) lines).
  Proof.
    intros FD DC FO HC NR NC BR BC. destruct (all_fine t R C FD FO HC NR NC DC BC) as [BND G]. destruct (G 0 0 BR BC) as (calls & E & CI & ND). exists (map mk calls). split; [exact E|]. split.
    - intros r c a. rewrite in_map_iff. split.
      + intros ([[a' r'] c'] & [= <- <- <-] & HI). apply CI in HI. destruct HI as (r1 & c1 & -> & -> & H). destruct (BND _ _ _ H). exists r1, c1. auto.
      + intros (r' & c' & H & _ & _ & -> & ->). exists (a, r', c'). split; [reflexivity|]. apply CI. exists r', c'. auto.
    - rewrite map_map. clear - ND. induction calls as [|x t IH]; cbn [map] in *; constructor; inversion ND as [|? ? NI ND']; subst; auto. intros H. apply NI. apply in_map_iff in H. destruct H as (y & EY & HY). apply in_map_iff. exists y. split; auto.
      unfold mk in EY. cbn in EY. injection EY as E1 E2. unfold pos. f_equal; lia.
  Qed.
  (** C65 (vectors): one line for each number, in the order of the vector *)
  Theorem C65_vector v : writeVectorToMatlab v = entries v.
  Proof. induction v as [a|l IH] using vtree_ind'; [reflexivity|]. cbn [writeVectorToMatlab entries]. induction IH as [|x t HX HT IHt]; cbn [flat_map]; [reflexivity|]. now rewrite HX, IHt. Qed.
  (** Deviation: a matrix without columns (for instance a default constructed BCRSMatrix) makes the writer access memory out of bounds *)
  Theorem C65_no_columns_refuted bt rows : writeMatrixToMatlab (CrsV bt 0 rows) = UB.
  Proof. reflexivity. Qed.
  (** Deviation: where the block size is not a static FieldMatrix size, an empty block column is not counted ... *)
  Theorem C65_empty_column_refuted a : let t := CrsV TNum 2 [[(1, NumV a)]] in
    flat_dims (shape t) 1 2 /\ distinct_cols (shape t) /\ fields_ok t /\ has_columns t /\ no_empty_row (shape t) /\ stored t 0 1 a /\ writeMatrixToMatlab t = Ok [(1%Z, 1%Z, a)].
  Proof.
    cbn zeta. assert (HB : forall i j (b : bmv), i < 1 -> In (j, b) (nth i [[(1, NumV a)]] nil) -> j < 2 /\ flat_dims (shape b) (nth i [1] 0) (nth j [1; 1] 0)).
    { intros [|i] j b Hi HI; [|lia]. destruct HI as [[= <- <-]|[]]. cbn. split; [lia|constructor]. }
    repeat apply conj.
    - apply (FCrs TNum 2 _ [1] [1; 1]); auto; [intros n m E; discriminate|]. intros [|i] j b Hi HI; cbn in Hi, HI; [|lia]. destruct HI as [[= <- <-]|[]]. cbn. split; [lia|constructor].
    - constructor. intros row [<-|[]]. split; [repeat constructor; intros []|]. intros e [<-|[]]. constructor.
    - constructor. intros row j b [<-|[]] [[= <- <-]|[]]. split; [reflexivity|constructor].
    - constructor; [lia|]. intros row j b [<-|[]] [[= <- <-]|[]]. constructor.
    - constructor. intros row [<-|[]]. split; [discriminate|]. intros e [<-|[]]. constructor.
    - change 0 with (list_sum (firstn 0 [1]) + 0). change (stored (CrsV TNum 2 [[(1, NumV a)]]) (list_sum (firstn 0 [1]) + 0) (list_sum (firstn 1 [1; 1]) + 0) a).
      apply (StCrs TNum 2 [[(1, NumV a)]] [1] [1; 1] 0 1 (NumV a)); auto; [intros n m E; discriminate|left; auto|constructor].
    - reflexivity.
  Qed.
  (** ... nor is an empty block row: two entries can end up on the same position *)
  Theorem C65_empty_row_refuted a : let t := CrsV TNum 1 [[]; [(0, NumV a)]] in
    flat_dims (shape t) 2 1 /\ distinct_cols (shape t) /\ fields_ok t /\ has_columns t /\ no_empty_col (shape t) /\ stored t 1 0 a /\ writeMatrixToMatlab t = Ok [(1%Z, 1%Z, a)].
  Proof.
    cbn zeta. assert (HB : forall i j (b : bmv), i < 2 -> In (j, b) (nth i [[]; [(0, NumV a)]] nil) -> j < 1 /\ flat_dims (shape b) (nth i [1; 1] 0) (nth j [1] 0)).
    { intros [|[|i]] j b Hi HI; [destruct HI| |lia]. destruct HI as [[= <- <-]|[]]. cbn. split; [lia|constructor]. }
    repeat apply conj.
    - apply (FCrs TNum 1 _ [1; 1] [1]); auto; [intros n m E; discriminate|]. intros [|[|i]] j b Hi HI; cbn in Hi, HI; [destruct HI| |lia]. destruct HI as [[= <- <-]|[]]. cbn. split; [lia|constructor].
    - constructor. intros row [<-|[<-|[]]]; (split; [repeat constructor; intros []|]); [intros e []|]. intros e [<-|[]]. constructor.
    - constructor. intros row j b [<-|[<-|[]]] HI; [destruct HI|]. destruct HI as [[= <- <-]|[]]. split; [reflexivity|constructor].
    - constructor; [lia|]. intros row j b [<-|[<-|[]]] HI; [destruct HI|]. destruct HI as [[= <- <-]|[]]. constructor.
    - constructor; [|intros row e [<-|[<-|[]]] HI; [destruct HI|destruct HI as [<-|[]]; constructor]]. intros [|j] Hj; [|lia]. exists [(0, Num)]. split; [right; left; reflexivity|left; reflexivity].
    - change (stored (CrsV TNum 1 [[]; [(0, NumV a)]]) (list_sum (firstn 1 [1; 1]) + 0) (list_sum (firstn 0 [1]) + 0) a).
      apply (StCrs TNum 1 [[]; [(0, NumV a)]] [1; 1] [1] 1 0 (NumV a)); auto; [intros n m E; discriminate|left; auto|constructor].
    - reflexivity.
  Qed.
End Matlab.

(** a BCRSMatrix of 2x2 and 2x1 ... blocks of different widths: BCRSMatrix<BCRSMatrix<double>>, [[1 2 | 5]; [3 . | 6]] *)
Definition ex_matlab : @bmv nat := CrsV (TCrs TNum) 2 [[(0, CrsV TNum 2 [[(0, NumV 1); (1, NumV 2)]; [(0, NumV 3)]]); (1, CrsV TNum 1 [[(0, NumV 5)]; [(0, NumV 6)]])]].
Example C65_nonvacuous : flat_dims (shape ex_matlab) 2 3 /\ distinct_cols (shape ex_matlab) /\ fields_ok ex_matlab /\ has_columns ex_matlab /\ no_empty_row (shape ex_matlab) /\ no_empty_col (shape ex_matlab) /\
  writeMatrixToMatlab ex_matlab = Ok [(1, 1, 1%nat); (1, 2, 2%nat); (2, 1, 3%nat); (1, 3, 5%nat); (2, 3, 6%nat)]%Z.
Proof.
  assert (D1 : flat_dims (Crs TNum 2 [[(0, Num); (1, Num)]; [(0, Num)]]) 2 2).
  { apply (FCrs TNum 2 _ [1; 1] [1; 1]); auto; [intros n m E; discriminate|]. intros [|[|i]] j b Hi HI; cbn in Hi, HI; [| |lia]; repeat (destruct HI as [HI|HI]; [injection HI as <- <-; cbn; (split; [lia|constructor])|]); destruct HI. }
  assert (D2 : flat_dims (Crs TNum 1 [[(0, Num)]; [(0, Num)]]) 2 1).
  { apply (FCrs TNum 1 _ [1; 1] [1]); auto; [intros n m E; discriminate|]. intros [|[|i]] j b Hi HI; cbn in Hi, HI; [| |lia]; repeat (destruct HI as [HI|HI]; [injection HI as <- <-; cbn; (split; [lia|constructor])|]); destruct HI. }
  assert (IN : forall {X} (x y z : X), In x [y; z] -> x = y \/ x = z) by (intros X x y z [H|[H|[]]]; auto).
  repeat apply conj.
  - apply (FCrs (TCrs TNum) 2 _ [2] [2; 1]); auto; [intros n m E; discriminate|]. intros [|i] j b Hi HI; cbn in Hi, HI; [|lia]. destruct HI as [[= <- <-]|[[= <- <-]|[]]]; cbn; (split; [lia|assumption]).
  - constructor. intros row [<-|[]]. split; [cbn; repeat constructor; cbn; intuition lia|]. intros e [<-|[<-|[]]]; cbn; constructor; intros row [<-|[<-|[]]]; (split; [cbn; repeat constructor; cbn; intuition lia|]); intros e HE; repeat (destruct HE as [HE|HE]; [subst; constructor|]); destruct HE.
  - constructor. intros row j b [<-|[]] [[= <- <-]|[[= <- <-]|[]]]; (split; [reflexivity|]); constructor; intros row j b [<-|[<-|[]]] HI; repeat (destruct HI as [HI|HI]; [injection HI as <- <-; (split; [reflexivity|constructor])|]); destruct HI.
  - constructor; [lia|]. intros row j b [<-|[]] [[= <- <-]|[[= <- <-]|[]]]; (constructor; [lia|]); intros row j b [<-|[<-|[]]] HI; repeat (destruct HI as [HI|HI]; [injection HI as <- <-; constructor|]); destruct HI.
  - cbn. apply RCrs. intros row [<-|[]]. split; [discriminate|]. intros e [<-|[<-|[]]]; cbn; apply RCrs; intros row [<-|[<-|[]]]; (split; [discriminate|]); intros e HE; repeat (destruct HE as [HE|HE]; [subst; constructor|]); destruct HE.
  - cbn. apply CCrs.
    + intros j Hj. eexists. split; [left; reflexivity|]. destruct j as [|[|j]]; cbn; auto. lia.
    + intros row e [<-|[]] [<-|[<-|[]]]; cbn; apply CCrs.
      * intros j Hj. eexists. split; [left; reflexivity|]. destruct j as [|[|j]]; cbn; auto. lia.
      * intros row e [<-|[<-|[]]] HE; repeat (destruct HE as [HE|HE]; [subst; constructor|]); destruct HE.
      * intros j Hj. eexists. split; [left; reflexivity|]. destruct j as [|j]; cbn; auto. lia.
      * intros row e [<-|[<-|[]]] HE; repeat (destruct HE as [HE|HE]; [subst; constructor|]); destruct HE.
  - reflexivity.
Qed.
Print Assumptions C65_matrix.
Print Assumptions C65_vector.
