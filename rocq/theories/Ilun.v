(** * ILU(n) decomposition (dune/istl/ilu.hh:167-262), C16 *)
From Coq Require Import Arith List Lia Sorted Bool ZArith QArith Qcanon.
From Verif Require Import Ring Sums RingInst Outcome Sparse MatVec GsModel Gs Ilu IluSolve.
Import ListNotations.
Open Scope nat_scope.

(** ** Model *)
(** A row of the symbolic factor: columns with their generation, in increasing column order, as in std::map<size_t,int>.
    The code keeps the generations of finished rows in the first element of each block of ILU, as floating point numbers
    (ilu.hh:205-208, 229); the model keeps them as numbers. *)
Notation grow := (list (nat * nat)).
(** rowpattern.find(j)==end() then rowpattern[j] = g, ilu.hh:211-215 *)
Fixpoint gins (j g : nat) (l : grow) : grow :=
  match l with
  | nil => [(j, g)]
  | (k, h) :: t => if j =? k then l else if j <? k then (j, g) :: l else (k, h) :: gins j g t
  end.
(** the cursor behind ILU[k].find(k), ilu.hh:201-202; [None] = incremented past the end *)
Fixpoint right_of {T} (row : list (nat * T)) (k : nat) : option (list (nat * T)) :=
  match row with
  | nil => None
  | (j, _) :: t => if j =? k then Some t else right_of t k
  end.
(** row k eliminates in row i, ilu.hh:202-217 *)
Fixpoint gins_all (n : nat) (rk t : grow) : grow :=
  match rk with
  | nil => t
  | (j, g) :: rk' => gins_all n rk' (if g <? n then gins j (S g) t else t)
  end.
(** loop over the columns left of the diagonal, ilu.hh:196-219.  Insertions happen behind the current position only, so the walk
    over the map is a walk over the remaining entries.  Walking past the end is UB.  [fuel] > i suffices. *)
Fixpoint sym_row (fuel n : nat) (G : list grow) (i : nat) (rest : grow) : outcome grow :=
  match fuel with
  | 0 => UB
  | S fuel =>
    match rest with
    | nil => UB
    | (k, g) :: t =>
        if k <? i then
          if g <? n then match right_of (nth k G nil) k with
                         | None => UB
                         | Some rk => obind (sym_row fuel n G i (gins_all n rk t)) (fun r => Ok ((k, g) :: r))
                         end
          else obind (sym_row fuel n G i t) (fun r => Ok ((k, g) :: r))
        else Ok rest
    end
  end.

Section Ilun.
  Context {R : ring}.
  Local Open Scope ring_scope_istl.
  Variable inv : R -> option R.

  (** symbolic phase, ilu.hh:184-232; ILU is created row by row with exactly these columns (row-wise creation: see C03) *)
  Fixpoint sym_rows (n : nat) (G : list grow) (A : smat R) : outcome (list grow) :=
    match A with
    | nil => Ok G
    | row :: t => obind (sym_row (S (length G)) n G (length G) (map (fun e => (fst e, 0%nat)) row)) (fun r => sym_rows n (G ++ [r]) t)
    end.
  (** copy phase, ilu.hh:234-258: clear the row, then two cursors *)
  Fixpoint copy_row (arow : srow R) : list nat -> srow R :=
    fix aux (cols : list nat) : srow R :=
      match arow, cols with
      | (j, a) :: t, c :: cs => if j =? c then (c, a) :: copy_row t cs
                                else if j <? c then copy_row t cols
                                else (c, r0) :: aux cs
      | nil, c :: cs => (c, r0) :: aux cs
      | _, nil => nil
      end.
  Fixpoint copy_rows (A : smat R) (G : list grow) : smat R :=
    match A, G with
    | row :: A', g :: G' => copy_row row (map fst g) :: copy_rows A' G'
    | _, _ => nil
    end.
  (** ILU::blockILUDecomposition, ilu.hh:176-265 *)
  Definition blockILUDecomposition (A : smat R) (n : nat) : outcome (smat R) :=
    obind (sym_rows n nil A) (fun G => blockILU0Decomposition inv (copy_rows A G)).

  (** ** Specification *)
  (** complete fill-in of Gaussian elimination *)
  Inductive fill (A : smat R) : nat -> nat -> Prop :=
  | fill_base i j : instored A i j -> fill A i j
  | fill_step i k j : k < i -> k < j -> fill A i k -> fill A k j -> fill A i j.
  (** classical level of fill: [level A l i j] = there is an elimination path of level [l] *)
  Inductive level (A : smat R) : nat -> nat -> nat -> Prop :=
  | lev_base i j : instored A i j -> level A 0 i j
  | lev_step l l' i k j : k < i -> k < j -> level A l i k -> level A l' k j -> level A (S (l + l')) i j.
  Definition level_at_most (A : smat R) (p i j : nat) : Prop := exists l, l <= p /\ level A l i j.

  (** ** Proof *)
  Definition gsorted (l : grow) : Prop := StronglySorted lt (map fst l).
  Definition above (k : nat) (l : grow) : Prop := Forall (fun e => k < fst e) l.

  Lemma gins_in j g l e : In e (gins j g l) -> e = (j, g) \/ In e l.
  Proof. induction l as [|[k h] t IH]; cbn; [intuition|]. destruct (j =? k); [cbn; tauto|]. destruct (j <? k); cbn; intuition. Qed.
  Lemma gins_old j g l e : In e l -> In e (gins j g l).
  Proof. induction l as [|[k h] t IH]; cbn; [tauto|]. destruct (j =? k); [cbn; tauto|]. destruct (j <? k); cbn; tauto. Qed.
  Lemma gins_has j g l : exists h, In (j, h) (gins j g l).
  Proof.
    induction l as [|[k h] t [h' IH]]; cbn; [eauto|]. destruct (Nat.eqb_spec j k) as [->|]; [cbn; eauto|]. destruct (j <? k); cbn; eauto.
  Qed.
  Lemma gins_sorted j g l : gsorted l -> gsorted (gins j g l).
  Proof.
    unfold gsorted. induction l as [|[k h] t IH]; intros H; cbn; [repeat constructor|]. cbn in H. apply StronglySorted_inv in H. destruct H as [H1 H2].
    destruct (Nat.eqb_spec j k) as [->|]; [cbn; constructor; auto|]. destruct (Nat.ltb_spec j k); cbn.
    - repeat constructor; auto. rewrite Forall_forall in *. intros x Hx. specialize (H2 x Hx). lia.
    - constructor; auto. rewrite Forall_forall in *. intros x Hx. apply in_map_iff in Hx. destruct Hx as (e & <- & He). apply gins_in in He.
      destruct He as [->|He]; cbn; [lia|]. apply H2. now apply in_map.
  Qed.

  Lemma gins_all_spec n k rk : forall t, gsorted t -> above k t -> above k rk ->
    gsorted (gins_all n rk t) /\ above k (gins_all n rk t) /\ (forall e, In e t -> In e (gins_all n rk t)) /\
    (forall j g, In (j, g) (gins_all n rk t) -> In (j, g) t \/ exists gkj, In (j, gkj) rk /\ gkj < n /\ g = S gkj) /\
    (forall j gkj, In (j, gkj) rk -> gkj < n -> exists g, In (j, g) (gins_all n rk t)).
  Proof.
    induction rk as [|[j0 g0] rk IH]; intros t HS HA HR; cbn [gins_all].
    - split; auto. split; auto. split; auto. split; [auto|]. intros j g [].
    - inversion HR as [|? ? HR1 HR2]; subst. cbn in HR1. destruct (Nat.ltb_spec g0 n) as [Hg|Hg].
      + destruct (IH (gins j0 (S g0) t)) as (I1 & I2 & I3 & I4 & I5); auto.
        { apply gins_sorted; auto. }
        { unfold above in *. rewrite Forall_forall in *. intros e He. apply gins_in in He. destruct He as [->|He]; auto. }
        split; auto. split; auto. split; [intros e He; apply I3, gins_old; auto|]. split.
        * intros j g H. apply I4 in H. destruct H as [H|(gkj & H & H')]; [|right; exists gkj; split; [right|]; auto].
          apply gins_in in H. destruct H as [H|H]; auto. injection H as -> ->. right. exists g0. split; [left|]; auto.
        * intros j gkj [H|H] Hn; [|eapply I5; eauto]. injection H as -> ->. destruct (gins_has j (S gkj) t) as [h Hh]. exists h. auto.
      + destruct (IH t HS HA HR2) as (I1 & I2 & I3 & I4 & I5). split; auto. split; auto. split; auto. split.
        * intros j g H. apply I4 in H. destruct H as [H|(gkj & H & H')]; auto. right. exists gkj. split; [right|]; auto.
        * intros j gkj [H|H] Hn; [injection H as -> ->; lia|eauto].
  Qed.

  (** what one row of the symbolic factor satisfies *)
  Definition grow_ok (n : nat) (G : list grow) (i : nat) (row row' : grow) : Prop :=
    gsorted row' /\ (forall e, In e row -> In e row') /\
    (forall j g, In (j, g) row' -> In (j, g) row \/
       exists k gk gkj, k < i /\ k < j /\ In (k, gk) row' /\ gk < n /\ In (j, gkj) (nth k G nil) /\ gkj < n /\ g = S gkj) /\
    (forall k gk j gkj, k < i -> k < j -> In (k, gk) row' -> gk < n -> In (j, gkj) (nth k G nil) -> gkj < n -> exists g, In (j, g) row').

  Lemma right_of_spec (row : grow) k : gsorted row -> In k (map fst row) ->
    exists t, right_of row k = Some t /\ above k t /\ (forall e, In e t -> In e row) /\ forall e, In e row -> k < fst e -> In e t.
  Proof.
    induction row as [|[j g] t IH]; intros HS HI; [destruct HI|]. unfold gsorted in HS. cbn in HS. apply StronglySorted_inv in HS. destruct HS as [H1 H2].
    cbn [right_of]. destruct (Nat.eqb_spec j k) as [->|Hn].
    - exists t. split; auto. rewrite Forall_forall in H2. split; [|split; [cbn; auto|]].
      + apply Forall_forall. intros e He. apply H2. now apply in_map.
      + intros e [<-|He] Hk; auto. cbn in Hk. lia.
    - destruct HI as [HI|HI]; [cbn in HI; congruence|]. destruct (IH H1 HI) as (t' & E & Q1 & Q2 & Q3). exists t'. split; auto. split; auto. split; [cbn; auto|].
      intros e [<-|He] Hk; auto. cbn in Hk. rewrite Forall_forall in H2. specialize (H2 _ HI). lia.
  Qed.

  Lemma above_weaken k k' l : k <= k' -> above k' l -> above k l.
  Proof. intros H. apply Forall_impl. intros. lia. Qed.

  Lemma sym_row_spec n G i : (forall k, k < i -> gsorted (nth k G nil) /\ In k (map fst (nth k G nil))) ->
    forall fuel rest, gsorted rest -> In i (map fst rest) -> Forall (fun e => i < fst e + fuel) rest -> 0 < fuel ->
    exists row', sym_row fuel n G i rest = Ok row' /\ grow_ok n G i rest row' /\ (forall k, above k rest -> above k row').
  Proof.
    intros HG. induction fuel as [|fuel IH]; intros rest HS HI HF Hf; [lia|]. cbn [sym_row]. destruct rest as [|[k g] t]; [destruct HI|].
    unfold gsorted in HS. cbn in HS. apply StronglySorted_inv in HS. destruct HS as [HS HA]. assert (HA' : above k t).
    { apply Forall_forall. rewrite Forall_forall in HA. intros e He. apply HA. now apply in_map. }
    inversion HF as [|? ? HF1 HF2]; subst. cbn [fst] in HF1.
    assert (SELF : grow_ok n G i ((k, g) :: t) ((k, g) :: t) -> exists row', Ok ((k, g) :: t) = Ok row' /\ grow_ok n G i ((k, g) :: t) row' /\ (forall k0, above k0 ((k, g) :: t) -> above k0 row')) by eauto.
    destruct (Nat.ltb_spec k i) as [Hk|Hk].
    - destruct HI as [HI|HI]; [cbn in HI; lia|].
      assert (HFt : forall t', above k t' -> Forall (fun e => i < fst e + fuel) t').
      { intros t'. apply Forall_impl. intros e He. lia. }
      assert (Hf' : 0 < fuel) by lia.
      destruct (Nat.ltb_spec g n) as [Hg|Hg].
      + destruct (HG k Hk) as [G1 G2]. destruct (right_of_spec _ k G1 G2) as (rk & -> & R1 & R2 & R3).
        destruct (gins_all_spec n k rk t HS HA' R1) as (I1 & I2 & I3 & I4 & I5).
        destruct (IH (gins_all n rk t)) as (row' & -> & (O1 & O2 & O3 & O4) & OA); auto.
        { apply in_map_iff in HI. destruct HI as (e & <- & He). apply in_map. auto. }
        cbn [obind]. exists ((k, g) :: row'). split; auto.
        assert (AB : above k row') by auto. split; [|intros k0 H0; inversion H0; subst; constructor; auto; eapply above_weaken; [|exact AB]; cbn in *; lia].
        split; [|split; [|split]].
        * unfold gsorted. cbn. constructor; auto. apply Forall_forall. intros x Hx. apply in_map_iff in Hx. destruct Hx as (e & <- & He).
          unfold above in AB. rewrite Forall_forall in AB. auto.
        * intros e [<-|He]; [left; auto|right; auto].
        * intros j h [H|H]; [left; left; auto|]. destruct (O3 j h H) as [H'|(k2 & gk & gkj & Q1 & Q2 & Q3 & Q4 & Q5 & Q6 & Q7)].
          -- destruct (I4 j h H') as [H2|(gkj & Q1 & Q2 & Q3)]; [left; right; auto|]. right. exists k, g, gkj.
             repeat split; auto; [|left; auto]. unfold above in R1. rewrite Forall_forall in R1. apply (R1 _ Q1).
          -- right. exists k2, gk, gkj. repeat split; auto. right; auto.
        * intros k2 gk j gkj Q1 Q2 [Q3|Q3] Q4 Q5 Q6.
          -- injection Q3 as <- <-. destruct (I5 j gkj) as [h Hh]; auto. exists h. right. auto.
          -- destruct (O4 k2 gk j gkj) as [h Hh]; auto. exists h. right; auto.
      + destruct (IH t) as (row' & -> & (O1 & O2 & O3 & O4) & OA); auto. cbn [obind]. exists ((k, g) :: row'). split; auto.
        assert (AB : above k row') by auto. split; [|intros k0 H0; inversion H0; subst; constructor; auto; eapply above_weaken; [|exact AB]; cbn in *; lia].
        split; [|split; [|split]].
        * unfold gsorted. cbn. constructor; auto. apply Forall_forall. intros x Hx. apply in_map_iff in Hx. destruct Hx as (e & <- & He).
          unfold above in AB. rewrite Forall_forall in AB. auto.
        * intros e [<-|He]; [left; auto|right; auto].
        * intros j h [H|H]; [left; left; auto|]. destruct (O3 j h H) as [H'|(k2 & gk & gkj & Q1 & Q2 & Q3 & Q4 & Q5 & Q6 & Q7)]; [left; right; auto|].
          right. exists k2, gk, gkj. repeat split; auto. right; auto.
        * intros k2 gk j gkj Q1 Q2 [Q3|Q3] Q4 Q5 Q6; [injection Q3 as <- <-; lia|].
          destruct (O4 k2 gk j gkj) as [h Hh]; auto. exists h. right; auto.
    - apply SELF. split; [unfold gsorted; cbn; constructor; auto|]. split; auto. split; auto.
      intros k2 gk j gkj Q1 Q2 Q3 Q4 Q5 Q6. exfalso. destruct Q3 as [Q3|Q3]; [injection Q3 as -> ->; lia|].
      unfold above in HA'. rewrite Forall_forall in HA'. specialize (HA' _ Q3). cbn in HA'. lia.
  Qed.

  Definition zrow (row : srow R) : grow := map (fun e => (fst e, 0%nat)) row.
  Lemma zrow_cols row : map fst (zrow row) = map fst row.
  Proof. unfold zrow. rewrite map_map. reflexivity. Qed.
  Lemma zrow_in row j g : In (j, g) (zrow row) <-> In j (map fst row) /\ g = 0%nat.
  Proof.
    unfold zrow. rewrite !in_map_iff. split.
    - intros (e & E & He). injection E as <- <-. split; auto. exists e; auto.
    - intros ((e & <- & He) & ->). exists e. auto.
  Qed.
  Lemma grow_ok_ext n G G' i row row' : (forall k, k < i -> nth k G nil = nth k G' nil) -> grow_ok n G i row row' -> grow_ok n G' i row row'.
  Proof.
    intros HE (O1 & O2 & O3 & O4). split; auto. split; auto. split.
    - intros j g H. destruct (O3 j g H) as [H'|(k & gk & gkj & Q1 & Q2 & Q3 & Q4 & Q5 & Q6 & Q7)]; auto. right. exists k, gk, gkj. rewrite <- HE by auto. auto 8.
    - intros k gk j gkj Q1 Q2 Q3 Q4 Q5 Q6. rewrite <- HE in Q5 by auto. eauto.
  Qed.

  Definition gens_ok (p : nat) (A : smat R) (G : list grow) : Prop :=
    forall i, i < length G -> grow_ok p G i (zrow (nth i A nil)) (nth i G nil) /\ In i (map fst (nth i G nil)).
  Lemma sym_rows_spec p m A : forall A0 G0, gens_ok p (A0 ++ A) G0 -> length G0 = length A0 -> Forall (row_wf m) A ->
    (forall i, i < length A -> In (length G0 + i)%nat (map fst (nth i A nil))) ->
    exists G, sym_rows p G0 A = Ok G /\ length G = length (A0 ++ A) /\ gens_ok p (A0 ++ A) G.
  Proof.
    induction A as [|row t IH]; intros A0 G0 HG HL HW HD; cbn [sym_rows].
    - exists G0. rewrite app_nil_r in *. auto.
    - inversion HW as [|? ? W1 W2]; subst. pose proof (HD 0%nat ltac:(cbn; lia)) as HD0. rewrite Nat.add_0_r in HD0. cbn [nth] in HD0.
      destruct (sym_row_spec p G0 (length G0)) with (fuel := S (length G0)) (rest := zrow row) as (r & E & O & _).
      + intros k Hk. destruct (HG k Hk) as [(O1 & _) O2]. auto.
      + unfold gsorted. rewrite zrow_cols. apply W1.
      + rewrite zrow_cols. auto.
      + apply Forall_forall. intros e He. lia.
      + lia.
      + change (map (fun e : nat * R => (fst e, 0%nat)) row) with (zrow row). rewrite E. cbn [obind].
        destruct (IH (A0 ++ [row]) (G0 ++ [r])) as (G & EG & LG & OG).
        * intros i Hi. rewrite app_length in Hi. cbn in Hi. rewrite <- app_assoc. cbn [app].
          destruct (Nat.eq_dec i (length G0)) as [->|Hn].
          -- rewrite nth_middle. rewrite HL at 2. rewrite nth_middle. split.
             ++ apply grow_ok_ext with (G := G0); auto. intros k Hk. now rewrite app_nth1.
             ++ destruct O as (_ & O2 & _). apply in_map_iff. exists (length G0, 0%nat). split; auto. apply O2. apply zrow_in. auto.
          -- rewrite (app_nth1 G0) by lia. destruct (HG i ltac:(lia)) as [Q1 Q2]. split; auto.
             apply grow_ok_ext with (G := G0); auto. intros k Hk. rewrite app_nth1 by lia. auto.
        * rewrite !app_length. cbn. lia.
        * auto.
        * intros i Hi. rewrite app_length. cbn [length]. specialize (HD (S i) ltac:(cbn; lia)). cbn [nth] in HD.
          replace (length G0 + 1 + i)%nat with (length G0 + S i)%nat by lia. auto.
        * exists G. rewrite <- app_assoc in LG, OG. cbn [app] in LG, OG. auto.
  Qed.

  Definition gstored (G : list grow) (i j : nat) : Prop := In j (map fst (nth i G nil)).
  Lemma gstored_ex G i j : gstored G i j <-> exists g, In (j, g) (nth i G nil).
  Proof. unfold gstored. rewrite in_map_iff. split; [intros ([j' g] & <- & H); eauto|intros (g & H); exists (j, g); auto]. Qed.

  Lemma level_le1 A l i j : level A l i j -> l <= 1 -> instored A i j \/ exists k, k < i /\ k < j /\ instored A i k /\ instored A k j.
  Proof.
    intros H Hl. assert (Z : forall i j, level A 0 i j -> instored A i j) by (intros i' j' H'; inversion H'; auto).
    inversion H as [|l1 l2 ? k ? Hk Hj H1 H2]; subst; auto. assert (l1 = 0%nat /\ l2 = 0%nat) as [-> ->] by lia. right. exists k. auto.
  Qed.
  Section Gens.
    Variables (p n : nat) (A : smat R) (G : list grow).
    Hypothesis HW : mat_wf n n A.
    Hypothesis HL : length G = n.
    Hypothesis HG : gens_ok p A G.
    Lemma gens_row i : i < n -> grow_ok p G i (zrow (nth i A nil)) (nth i G nil).
    Proof. intros H. apply HG. lia. Qed.
    Lemma gens_range i j : gstored G i j -> i < n.
    Proof. intros H. unfold gstored in H. destruct (Nat.lt_ge_cases i n); auto. rewrite nth_overflow in H by lia. destruct H. Qed.
    Lemma gens_base i j : i < n -> instored A i j -> In (j, 0%nat) (nth i G nil).
    Proof. intros Hi H. destruct (gens_row i Hi) as (_ & O2 & _). apply O2, zrow_in. auto. Qed.
    Lemma gens_zero i j : i < n -> In (j, 0%nat) (nth i G nil) -> instored A i j.
    Proof.
      intros Hi H. destruct (gens_row i Hi) as (_ & _ & O3 & _). destruct (O3 j 0%nat H) as [H'|(k & gk & gkj & Q)]; [apply zrow_in in H'; apply H'|].
      destruct Q as (_ & _ & _ & _ & _ & _ & Q). discriminate.
    Qed.
    Lemma gens_bound i : forall j g, In (j, g) (nth i G nil) -> g <= i.
    Proof.
      induction i as [i IH] using (well_founded_induction lt_wf). intros j g H. assert (Hi : i < n) by (apply (gens_range i j), gstored_ex; eauto).
      destruct (gens_row i Hi) as (_ & _ & O3 & _). destruct (O3 j g H) as [H'|(k & gk & gkj & Q1 & Q2 & Q3 & Q4 & Q5 & Q6 & Q7)].
      - apply zrow_in in H'. lia.
      - specialize (IH k Q1 _ _ Q5). lia.
    Qed.
    Lemma gens_fill i : forall j, gstored G i j -> fill A i j.
    Proof.
      induction i as [i IH] using (well_founded_induction lt_wf). induction j as [j IHj] using (well_founded_induction lt_wf). intros H.
      assert (Hi : i < n) by (eapply gens_range; eauto). apply gstored_ex in H. destruct H as [g H].
      destruct (gens_row i Hi) as (_ & _ & O3 & _). destruct (O3 j g H) as [H'|(k & gk & gkj & Q1 & Q2 & Q3 & Q4 & Q5 & Q6 & Q7)].
      - apply zrow_in in H'. apply fill_base. apply H'.
      - apply fill_step with k; auto; [apply IHj; auto|apply IH; auto]; apply gstored_ex; eauto.
    Qed.
    Lemma gens_full : n <= p -> forall i j, i < n -> fill A i j -> gstored G i j.
    Proof.
      intros Hp i j Hi H. revert Hi. induction H as [i j H|i k j Hk Hj H1 IH1 H2 IH2]; intros Hi.
      - apply gstored_ex. exists 0%nat. apply gens_base; auto.
      - specialize (IH1 Hi). specialize (IH2 ltac:(lia)). apply gstored_ex in IH1, IH2. destruct IH1 as [g1 G1], IH2 as [g2 G2].
        destruct (gens_row i Hi) as (_ & _ & _ & O4). pose proof (gens_bound i _ _ G1). pose proof (gens_bound k _ _ G2).
        apply gstored_ex. eapply O4 with (k := k); eauto; lia.
    Qed.
    Lemma fill_range i j : i < n -> fill A i j -> j < n.
    Proof.
      intros Hi H. revert Hi. induction H as [i j H|i k j Hk Hj H1 IH1 H2 IH2]; intros Hi; [|apply IH2; lia].
      destruct HW as [L F]. rewrite Forall_forall in F. destruct (F (nth i A nil)) as [_ B]; [apply nth_In; lia|]. rewrite Forall_forall in B. auto.
    Qed.
    Lemma gens_p0 i j : p = 0%nat -> gstored G i j -> instored A i j.
    Proof.
      intros Hp H. assert (Hi : i < n) by (eapply gens_range; eauto). apply gstored_ex in H. destruct H as [g H].
      destruct (gens_row i Hi) as (_ & _ & O3 & _). destruct (O3 j g H) as [H'|(k & gk & gkj & Q1 & Q2 & Q3 & Q4 & Q5 & Q6 & Q7)]; [|lia]. apply zrow_in in H'. apply H'.
    Qed.
    Lemma gens_p1 i j : p = 1%nat -> i < n -> gstored G i j <-> level_at_most A 1 i j.
    Proof.
      intros Hp Hi. split; intros H.
      - apply gstored_ex in H. destruct H as [g H]. destruct (gens_row i Hi) as (_ & _ & O3 & _).
        destruct (O3 j g H) as [H'|(k & gk & gkj & Q1 & Q2 & Q3 & Q4 & Q5 & Q6 & Q7)].
        + exists 0%nat. split; [lia|]. apply zrow_in in H'. apply lev_base, H'.
        + exists 1%nat. split; auto. assert (gk = 0%nat) by lia. assert (gkj = 0%nat) by lia. subst gk gkj. apply (lev_step A 0 0 i k j); auto; apply lev_base; apply gens_zero; auto; lia.
      - destruct H as (l & Hl & H). destruct (level_le1 A l i j H Hl) as [H'|(k & Hk & Hj & B1 & B2)]; [apply gstored_ex; eexists; apply gens_base; eauto|].
        destruct (gens_row i Hi) as (_ & _ & _ & O4). apply gstored_ex. apply (O4 k 0%nat j 0%nat); auto; try lia; apply gens_base; auto; lia.
    Qed.
  End Gens.

  (** *** the copy phase *)
  Lemma copy_row_cols row : forall cols, map fst (copy_row row cols) = cols.
  Proof.
    induction row as [|[j a] t IH]; intros cols; induction cols as [|c cs IHc]; try reflexivity; cbn [copy_row].
    - cbn. f_equal. exact IHc.
    - destruct (j =? c); [cbn; now rewrite IH|]. destruct (j <? c); [apply IH|]. cbn. f_equal. exact IHc.
  Qed.
  Lemma copy_row_den row : forall cols, StronglySorted lt (map fst row) -> StronglySorted lt cols -> (forall j, In j (map fst row) -> In j cols) ->
    forall j, denrow (copy_row row cols) j = denrow row j.
  Proof.
    induction row as [|[j a] t IH]; intros cols S1 S2 HI x.
    - clear. induction cols as [|c cs IHc]; [reflexivity|]. cbn [copy_row denrow]. destruct (c =? x); auto.
    - cbn [map fst] in S1. apply StronglySorted_inv in S1. destruct S1 as [S1 F1]. rewrite Forall_forall in F1.
      induction cols as [|c cs IHc]; [destruct (HI j); left; auto|]. apply StronglySorted_inv in S2. destruct S2 as [S2 F2]. rewrite Forall_forall in F2.
      cbn [copy_row]. destruct (Nat.eqb_spec j c) as [->|Hn].
      + cbn [denrow]. destruct (c =? x); auto. apply IH; auto. intros y Hy. destruct (HI y); [right; auto| |auto]. subst. specialize (F1 _ Hy). lia.
      + destruct (Nat.ltb_spec j c).
        * exfalso. destruct (HI j); [left; auto|subst; lia|]. specialize (F2 _ H0). lia.
        * transitivity (if c =? x then r0 else denrow (copy_row ((j, a) :: t) cs) x); [reflexivity|].
          destruct (Nat.eqb_spec c x) as [<-|].
          -- symmetry. apply denrow_notin. intros HH. cbn in HH. destruct HH as [HH|HH]; [subst; auto|]. specialize (F1 _ HH). lia.
          -- apply IHc; auto. intros y Hy. destruct (HI y Hy); auto. subst y. destruct Hy as [Hy|Hy]; [cbn in Hy; congruence|]. specialize (F1 _ Hy). lia.
  Qed.
  Lemma copy_rows_nth A : forall G i, length G = length A -> nth i (copy_rows A G) nil = copy_row (nth i A nil) (map fst (nth i G nil)).
  Proof.
    induction A as [|row t IH]; intros [|g G] i HL; try discriminate; destruct i; try reflexivity. cbn [copy_rows nth]. apply IH. now injection HL.
  Qed.
  Lemma copy_rows_len A : forall G, length G = length A -> length (copy_rows A G) = length A.
  Proof. induction A as [|row t IH]; intros [|g G] HL; try discriminate; auto. cbn. f_equal. apply IH. now injection HL. Qed.

  (** the symbolic phase never fails; the numeric phase is ILU(0) on the padded matrix *)
  Lemma ilun_reduce p n (A : smat R) : mat_wf n n A -> diag_stored n A ->
    exists G P, length G = n /\ gens_ok p A G /\ blockILUDecomposition A p = blockILU0Decomposition inv P /\
      mat_wf n n P /\ diag_stored n P /\ (forall i j, instored P i j <-> gstored G i j) /\ forall i j, den P i j = den A i j.
  Proof.
    intros HW HD. pose proof HW as [HL HF]. destruct (sym_rows_spec p n A nil nil) as (G & E & LG & OG); auto.
    { intros i Hi. cbn in Hi. lia. }
    { intros i Hi. apply HD. lia. }
    cbn [app] in *. rewrite HL in LG. exists G, (copy_rows A G). split; auto. split; auto. split; [unfold blockILUDecomposition; rewrite E; reflexivity|].
    assert (ST : forall i j, instored (copy_rows A G) i j <-> gstored G i j).
    { intros i j. unfold instored, gstored. rewrite copy_rows_nth by lia. rewrite copy_row_cols. tauto. }
    split; [|split; [|split; [exact ST|]]].
    - split; [rewrite copy_rows_len; lia|]. apply Forall_forall. intros r Hr. apply (In_nth _ _ nil) in Hr. destruct Hr as (i & Hi & <-).
      rewrite copy_rows_len in Hi by lia. rewrite copy_rows_nth by lia. unfold row_wf. rewrite copy_row_cols. split.
      + destruct (gens_row p n A G LG OG i ltac:(lia)) as (O1 & _). exact O1.
      + apply Forall_forall. intros j Hj. eapply (fill_range n A G) with (i := i); eauto; [lia|]. eapply gens_fill; eauto.
    - intros i Hi. apply ST. apply OG. lia.
    - intros i j. unfold den. rewrite copy_rows_nth by lia. destruct (Nat.lt_ge_cases i n) as [Hi|Hi].
      + apply copy_row_den.
        * rewrite Forall_forall in HF. destruct (HF (nth i A nil)) as [Q _]; auto. apply nth_In. lia.
        * destruct (gens_row p n A G LG OG i ltac:(lia)) as (O1 & _). exact O1.
        * intros x Hx. apply gstored_ex. exists 0%nat. eapply gens_base; eauto.
      + rewrite !nth_overflow by lia. reflexivity.
  Qed.

  Hypothesis inv_ok : forall a b, inv a = Some b -> inverse_of a b.

  Theorem C16_ilun p n (A : smat R) : mat_wf n n A -> diag_stored n A ->
    (exists F piv, blockILUDecomposition A p = Ok F /\ mat_wf n n F /\
       (forall i j, i < n -> instored A i j -> instored F i j) /\ (forall i j, instored F i j -> fill A i j) /\
       pivots n F piv /\ forall i j, i < n -> instored F i j -> sum n (fun k => Lfac F i k * Ufac piv F k j) = den A i j) \/
    (exists r, r < n /\ blockILUDecomposition A p = Throw (EBlock r)).
  Proof.
    intros HW HD. destruct (ilun_reduce p n A HW HD) as (G & P & LG & OG & E & WP & DP & ST & DE). rewrite E.
    destruct (C15_ilu0 inv inv_ok n P WP DP) as [(F & EF & WF & SP & piv & PV & LU)|(r & ER & Hr & _)]; [left|right; eauto].
    assert (SF : forall i j, instored F i j <-> gstored G i j).
    { intros i j. rewrite <- ST. unfold instored. rewrite <- !(map_nth (map fst)). unfold same_pattern in SP. rewrite SP. tauto. }
    exists F, piv. split; auto. split; auto. split; [|split; [|split; auto]].
    - intros i j Hi H. apply SF. apply gstored_ex. exists 0%nat. eapply gens_base; eauto.
    - intros i j H. eapply gens_fill; eauto. apply SF; auto.
    - intros i j Hi H. rewrite <- DE. apply LU; auto. apply ST, SF; auto.
  Qed.

  (** ILU(0) keeps exactly the pattern of A, ILU(1) exactly the entries of level at most 1. *)
  Theorem C16_low_levels p n (A F : smat R) : mat_wf n n A -> diag_stored n A -> blockILUDecomposition A p = Ok F ->
    (p = 0%nat -> forall i j, i < n -> instored F i j <-> instored A i j) /\
    (p = 1%nat -> forall i j, i < n -> instored F i j <-> level_at_most A 1 i j).
  Proof.
    intros HW HD EF. destruct (ilun_reduce p n A HW HD) as (G & P & LG & OG & E & WP & DP & ST & DE). rewrite E in EF.
    destruct (C15_ilu0 inv inv_ok n P WP DP) as [(F' & EF' & WF & SP & piv & PV & LU)|(r & ER & Hr & _)]; [|congruence].
    rewrite EF in EF'. injection EF' as <-.
    assert (SF : forall i j, instored F i j <-> gstored G i j).
    { intros i j. rewrite <- ST. unfold instored. rewrite <- !(map_nth (map fst)). unfold same_pattern in SP. rewrite SP. tauto. }
    split; intros Hp i j Hi; rewrite SF.
    - split; [apply (gens_p0 p n A G); auto|]. intros H. apply gstored_ex. exists 0%nat. eapply gens_base; eauto.
    - eapply gens_p1; eauto.
  Qed.

  (** With n >= N() the decomposition is the complete LU decomposition. *)
  Theorem C16_complete p n (A F : smat R) : mat_wf n n A -> diag_stored n A -> n <= p -> blockILUDecomposition A p = Ok F ->
    (forall i j, i < n -> instored F i j <-> fill A i j) /\
    exists piv, pivots n F piv /\ forall i j, i < n -> j < n -> sum n (fun k => Lfac F i k * Ufac piv F k j) = den A i j.
  Proof.
    intros HW HD Hp EF. destruct (ilun_reduce p n A HW HD) as (G & P & LG & OG & E & WP & DP & ST & DE). rewrite E in EF.
    destruct (C15_ilu0 inv inv_ok n P WP DP) as [(F' & EF' & WF & SP & piv & PV & LU)|(r & ER & Hr & _)]; [|congruence].
    rewrite EF in EF'. injection EF' as <-.
    assert (SF : forall i j, i < n -> instored F i j <-> fill A i j).
    { intros i j Hi. transitivity (gstored G i j).
      - rewrite <- ST. unfold instored. rewrite <- !(map_nth (map fst)). unfold same_pattern in SP. rewrite SP. tauto.
      - split; [eapply gens_fill; eauto|eapply gens_full; eauto]. }
    split; auto. exists piv. split; auto. intros i j Hi Hj. destruct (in_dec Nat.eq_dec j (map fst (nth i F nil))) as [HI|HI].
    - rewrite <- DE. apply LU; auto. unfold instored in *. rewrite <- !(map_nth (map fst)) in *. unfold same_pattern in SP. rewrite <- SP. auto.
    - assert (NF : ~ fill A i j) by (intros HH; apply HI; apply SF; auto).
      replace (den A i j) with (r0 : R).
      2:{ symmetry. unfold den. apply denrow_notin. intros HH. apply NF, fill_base. exact HH. }
      apply sum_zero. intros k Hk. unfold Lfac, Ufac.
      assert (Z : forall a b, a < n -> ~ fill A a b -> den F a b = r0).
      { intros a b Ha HN. unfold den. apply denrow_notin. intros HH. apply HN, SF; auto. }
      destruct (Nat.ltb_spec k i) as [H1|H1], (Nat.ltb_spec k j) as [H2|H2].
      + destruct (in_dec Nat.eq_dec k (map fst (nth i F nil))) as [I1|I1]; [destruct (in_dec Nat.eq_dec j (map fst (nth k F nil))) as [I2|I2]|].
        * exfalso. apply NF. apply fill_step with k; auto; apply SF; auto.
        * rewrite (Z k j) by (first [assumption|intros HH; apply I2; apply SF; auto]). ncring.
        * rewrite (Z i k) by (first [assumption|intros HH; apply I1; apply SF; auto]). ncring.
      + destruct (Nat.eqb_spec k j) as [->|]; [|ncring]. rewrite (Z i j) by auto. ncring.
      + destruct (Nat.eqb_spec k i) as [->|]; [|ncring]. rewrite (Z i j) by auto. ncring.
      + destruct (Nat.eqb_spec k i) as [->|]; [|ncring]. destruct (Nat.eqb_spec i j) as [->|]; [|ncring].
        exfalso. apply NF, fill_base. apply HD. auto.
  Qed.
End Ilun.

(** ** For n >= 2 the pattern is not the classical one (generation of (i,k) is not counted, first instead of smallest path). *)
Definition one : Qcring := q 1.
Definition exN1 : smat Qcring := [[(0, one); (1, one)]; [(1, one); (2, one)]; [(2, one); (3, one)]; [(3, one)]; [(0, one); (4, one)]].
Definition exN2 : smat Qcring := [[(0, one); (3, one)]; [(0, one); (1, one)]; [(2, one); (3, one)]; [(3, one); (4, one)]; [(4, one)]; [(1, one); (2, one); (5, one)]].
Lemma exN_wf : mat_wf 5 5 exN1 /\ diag_stored 5 exN1 /\ mat_wf 6 6 exN2 /\ diag_stored 6 exN2.
Proof.
  split; [split; [reflexivity|]; repeat (constructor; [split; cbn [map fst]; repeat constructor; lia|]); constructor|].
  split; [intros i Hi; do 5 (destruct i as [|i]; [cbn; tauto|]); lia|].
  split; [split; [reflexivity|]; repeat (constructor; [split; cbn [map fst]; repeat constructor; lia|]); constructor|].
  intros i Hi; do 6 (destruct i as [|i]; [cbn; tauto|]); lia.
Qed.
Theorem C16_level2_excess_refuted : exists n (A F : smat Qcring) i j, mat_wf n n A /\ diag_stored n A /\
  blockILUDecomposition (R := Qcring) Qcinv_opt A 2 = Ok F /\ instored F i j /\ ~ level_at_most A 2 i j.
Proof.
  exists 5, exN1. eexists. exists 4, 3. split; [apply exN_wf|]. split; [apply exN_wf|]. split; [vm_compute; reflexivity|]. split; [cbn; tauto|].
  intros (l & Hl & H). set (pos := fun i => match i with 4 => 0 | 0 => 1 | 1 => 2 | 2 => 3 | 3 => 4 | _ => 0 end).
  assert (HB : forall l i j, level exN1 l i j -> pos j <= pos i + l + 1).
  { clear. intros l i j H. induction H as [i j H|]; [|lia]. unfold instored in H.
    do 5 (destruct i as [|i]; [cbn in H; intuition (subst; cbn; lia)|]). destruct i; cbn in H; destruct H. }
  specialize (HB _ _ _ H). cbn in HB. lia.
Qed.
Theorem C16_level2_missing_refuted : exists n (A F : smat Qcring) i j, mat_wf n n A /\ diag_stored n A /\
  blockILUDecomposition (R := Qcring) Qcinv_opt A 2 = Ok F /\ level_at_most A 2 i j /\ ~ instored F i j.
Proof.
  exists 6, exN2. eexists. exists 5, 4. split; [apply exN_wf|]. split; [apply exN_wf|]. split; [vm_compute; reflexivity|]. split.
  - exists 2. split; auto. apply (lev_step exN2 1 0 5 3 4); try lia; [apply (lev_step exN2 0 0 5 2 3); try lia; apply lev_base; cbn; tauto|apply lev_base; cbn; tauto].
  - cbn. intuition discriminate.
Qed.
Example C16_nonvacuous : exists F, mat_wf 5 5 exN1 /\ diag_stored 5 exN1 /\ blockILUDecomposition (R := Qcring) Qcinv_opt exN1 1 = Ok F /\ instored F 4 1 /\ ~ instored exN1 4 1.
Proof. eexists. split; [apply exN_wf|]. split; [apply exN_wf|]. split; [vm_compute; reflexivity|]. split; cbn; [tauto|intuition discriminate]. Qed.
Print Assumptions C16_ilun.
Print Assumptions C16_low_levels.
Print Assumptions C16_complete.
Print Assumptions C16_level2_excess_refuted.
Print Assumptions C16_level2_missing_refuted.
