(** * MatrixIndexSet (dune/istl/matrixindexset.hh), C11 *)
From Coq Require Import List Arith Bool Lia Sorted.
From Verif Require Import Sums Outcome BcrsModel BcrsAux BcrsRandom BcrsWf BcrsAccess BcrsCopy BcrsSpec BcrsProps BcrsRowwise BcrsReach BcrsImplicit BcrsImplicitProps BcrsFinal.
Import ListNotations.

(** ** Model.  Index is std::uint_least32_t; the model uses unbounded numbers (indices and counts below 2^32). *)

(** RowIndexSet = std::variant<FlatSet, std::set<Index>> (matrixindexset.hh:59) *)
Inductive rowset := Flat (l : list nat) | Tree (l : list nat).
Definition contents (r : rowset) : list nat := match r with Flat l | Tree l => l end.

(** FlatSet::insert (matrixindexset.hh:49-53); [None]: std::lower_bound on an unsorted range *)
Definition flat_insert (l : list nat) (v : nat) : option (list nat) :=
  match lower_bound l v with
  | None => None
  | Some p => if (match nth_error l p with Some c => negb (c =? v) | None => true end)
              then Some (firstn p l ++ v :: skipn p l) else Some l
  end.
(** FlatSet::contains (matrixindexset.hh:54-56): std::binary_search *)
Definition flat_contains (l : list nat) (v : nat) : option bool :=
  match lower_bound l v with
  | None => None
  | Some p => Some (match nth_error l p with Some c => c =? v | None => false end)
  end.

(** MatrixIndexSet: indices_, rows_, cols_, maxVectorSize_ *)
Record mis := mkmis { mi_idx : list rowset; mi_rows : nat; mi_cols : nat; mi_max : nat }.

(** constructor (matrixindexset.hh:93-96) *)
Definition mis_new (rows cols maxv : nat) : mis := mkmis (repeat (Flat nil) rows) rows cols maxv.

(** std::vector::resize(n, value) *)
Definition vresize {A} (n : nat) (x : A) (l : list A) : list A := firstn n l ++ repeat x (n - length l).

(** resize (matrixindexset.hh:99-103) *)
Definition mis_resize (s : mis) (rows cols : nat) : mis :=
  mkmis (vresize rows (Flat nil) (mi_idx s)) rows cols (mi_max s).

(** add (matrixindexset.hh:112-131) *)
Definition mis_add (s : mis) (row col : nat) : res mis unit :=
  match nth_error (mi_idx s) row with
  | None => RUB
  | Some (Tree l) => ROk (mkmis (upd (mi_idx s) row (Tree (set_insert col l))) (mi_rows s) (mi_cols s) (mi_max s)) tt
  | Some (Flat l) =>
      if length l <? mi_max s then
        match flat_insert l col with
        | Some l' => ROk (mkmis (upd (mi_idx s) row (Flat l')) (mi_rows s) (mi_cols s) (mi_max s)) tt
        | None => RUB
        end
      else match flat_contains l col with
           | None => RUB
           | Some true => ROk s tt
           | Some false => ROk (mkmis (upd (mi_idx s) row (Tree (set_insert col (inserts l nil)))) (mi_rows s) (mi_cols s) (mi_max s)) tt
           end
  end.

(** rowsize, size (matrixindexset.hh:134-139, 163-167) *)
Definition mis_rowsize (s : mis) (row : nat) : nat := length (contents (nth row (mi_idx s) (Flat nil))).
Definition mis_size (s : mis) : nat := fold_left (fun e i => e + mis_rowsize s i) (seq 0 (mi_rows s)) 0.

(** import (matrixindexset.hh:175-193): all stored positions of a matrix, shifted *)
Definition mis_import {V} (s : mis) (rows : list (list (nat * V))) (ro co : nat) : res mis unit :=
  rrun (fun s ij => mis_add s (fst ij) (snd ij)) s
       (concat (map (fun ir => map (fun e => (fst ir + ro, fst e + co)) (snd ir)) (combine (seq 0 (length rows)) rows))).

Section Export.
  Context {V : Type}.
  Variables dv zv : V.

  (** BCRSMatrix::setIndicesNoSort (bcrsmatrix.hh:1231-1243): std::copy to the row's index pointer, then the check.
      Writing more than the long index array holds, or through a null pointer, is undefined. *)
  Definition setIndicesNoSort (s : @st V) (i : nat) (l : list nat) : res (@st V) unit :=
    let (h, M) := s in
    match nth_error (mrows M) i with
    | None => RUB
    | Some r =>
      let h' := match l, rj r with
                | nil, _ => Some h
                | _, JArr off => match jarr h M with
                                 | Some J => if off + length l <=? length J then Some (set_jarr h M (splice off l J)) else None
                                 | None => None
                                 end
                | _, _ => None
                end in
      match h' with
      | None => RUB
      | Some h' => if length l =? rsize r then ROk (h', M) tt else RThrow (h', M) EBCRS
      end
    end.

  (** exportIdx (matrixindexset.hh:200-220) *)
  Definition mis_export (x : mis) (s : @st V) : res (@st V) unit :=
    rbind (setSize dv s (mi_rows x) (mi_cols x) 0) (fun s _ =>
    rbind (setBuildMode s Random) (fun s _ =>
    rbind (rrun (fun s i => setrowsize s i (mis_rowsize x i)) s (seq 0 (mi_rows x))) (fun s _ =>
    rbind (endrowsizes dv s) (fun s _ =>
    rbind (rrun (fun s i => setIndicesNoSort s i (contents (nth i (mi_idx x) (Flat nil)))) s (seq 0 (mi_rows x))) (fun s _ =>
    endindices dv s))))).
End Export.

(** ** Specification *)
Inductive miscmd := MAdd (i j : nat) | MResize (rows cols : nat).
Definition mis_step (s : mis) (c : miscmd) : res mis unit :=
  match c with MAdd i j => mis_add s i j | MResize r c => ROk (mis_resize s r c) tt end.
(** the positions that should be in the set: those added since the row last (re)appeared *)
Definition positions (cmds : list miscmd) : nat -> nat -> Prop :=
  fold_left (fun P c => match c with
                        | MAdd a b => fun i j => P i j \/ (i = a /\ j = b)
                        | MResize r _ => fun i j => P i j /\ i < r
                        end) cmds (fun _ _ => False).
(** current number of rows / columns *)
Definition cur_rows (rows : nat) (cmds : list miscmd) : nat :=
  fold_left (fun n c => match c with MResize r _ => r | _ => n end) cmds rows.
Definition cur_cols (cols : nat) (cmds : list miscmd) : nat :=
  fold_left (fun n c => match c with MResize _ m => m | _ => n end) cmds cols.
(** every add() addresses an existing row *)
Fixpoint rows_exist (rows : nat) (cmds : list miscmd) : Prop :=
  match cmds with
  | nil => True
  | MAdd i _ :: t => i < rows /\ rows_exist rows t
  | MResize r _ :: t => rows_exist r t
  end.

(** ** Proofs *)
Lemma lower_bound_sorted l v : ssorted l -> exists l1 l2, l = l1 ++ l2 /\ Forall (fun y => y < v) l1 /\ Forall (fun y => v <= y) l2 /\ lower_bound l v = Some (length l1).
Proof.
  intros H. destruct (ss_split l v H) as (l1 & l2 & E & H1 & H2). exists l1, l2. repeat split; auto. subst. apply lower_bound_app; auto.
Qed.

Lemma set_insert_lt l1 l2 x : Forall (fun y => y < x) l1 -> set_insert x (l1 ++ l2) = l1 ++ set_insert x l2.
Proof.
  induction 1; simpl; auto. destruct (Nat.ltb_spec x x0); [lia|]. destruct (Nat.eqb_spec x x0); [lia|]. now rewrite IHForall.
Qed.

Lemma flat_insert_ok l v : ssorted l -> flat_insert l v = Some (set_insert v l).
Proof.
  intros H. destruct (lower_bound_sorted l v H) as (l1 & l2 & E & H1 & H2 & HB). unfold flat_insert. rewrite HB. subst l.
  rewrite set_insert_lt by auto. rewrite nth_error_app2, Nat.sub_diag by lia. rewrite firstn_app, firstn_all, Nat.sub_diag, firstn_O, app_nil_r.
  rewrite skipn_app, skipn_all, Nat.sub_diag. simpl.
  destruct l2 as [|y t]; simpl; auto. inversion H2; subst.
  destruct (Nat.ltb_spec v y).
  - destruct (Nat.eqb_spec y v); [lia|]. reflexivity.
  - assert (y = v) by lia. subst. rewrite !Nat.eqb_refl. reflexivity.
Qed.

Lemma flat_contains_ok l v : ssorted l -> exists b, flat_contains l v = Some b /\ (b = true <-> In v l).
Proof.
  intros H. destruct (lower_bound_sorted l v H) as (l1 & l2 & E & H1 & H2 & HB). unfold flat_contains. rewrite HB. eexists. split; [reflexivity|].
  subst l. rewrite nth_error_app2, Nat.sub_diag by lia. rewrite in_app_iff. rewrite Forall_forall in H1.
  destruct l2 as [|y t]; simpl.
  - split; [discriminate|]. intros [HI|[]]. specialize (H1 _ HI). lia.
  - apply ss_app_inv in H. destruct H as (_ & HS & _). inversion HS as [|? ? HS' HF]; subst. inversion H2; subst. rewrite Forall_forall in HF.
    destruct (Nat.eqb_spec y v) as [->|Hn]; split; auto; try discriminate.
    intros [HI|[HI|HI]]; [specialize (H1 _ HI); lia|congruence|]. specialize (HF _ HI). lia.
Qed.

Lemma inserts_sorted_id l : ssorted l -> inserts l nil = l.
Proof.
  intros H. apply ss_unique; auto.
  - apply inserts_ss. constructor.
  - intros x. rewrite inserts_In. simpl. tauto.
Qed.

(** the representation invariant *)
Definition mis_inv (s : mis) (P : nat -> nat -> Prop) : Prop :=
  length (mi_idx s) = mi_rows s /\ Forall (fun r => ssorted (contents r)) (mi_idx s) /\
  (forall i j, P i j <-> In j (contents (nth i (mi_idx s) (Flat nil)))).

Lemma mis_add_ok s P i j : mis_inv s P -> i < mi_rows s ->
  exists s', mis_add s i j = ROk s' tt /\ mis_inv s' (fun a b => P a b \/ (a = i /\ b = j)) /\
    mi_rows s' = mi_rows s /\ mi_cols s' = mi_cols s.
Proof.
  intros (HL & HF & HP) Hi. unfold mis_add. rewrite <- HL in Hi.
  destruct (nth_error (mi_idx s) i) as [r|] eqn:Er; [|apply nth_error_None in Er; lia].
  pose proof (nth_error_nth _ _ (Flat nil) Er) as En.
  assert (HS : ssorted (contents r)) by (rewrite Forall_forall in HF; apply HF; eapply nth_error_In; eauto).
  assert (KEY : forall r', contents r' = set_insert j (contents r) ->
    mis_inv (mkmis (upd (mi_idx s) i r') (mi_rows s) (mi_cols s) (mi_max s)) (fun a b => P a b \/ (a = i /\ b = j))).
  { intros r' Hr'. split; [simpl; now rewrite upd_length|]. split; simpl.
    - apply Forall_upd; auto. rewrite Hr'. now apply set_insert_ss.
    - intros a b. rewrite HP, nth_upd. destruct (Nat.eqb_spec i a) as [->|Hia].
      + destruct (Nat.ltb_spec a (length (mi_idx s))); [|lia]. rewrite Hr', set_insert_In, En. intuition.
      + intuition congruence. }
  destruct r as [l|l]; simpl in HS, KEY.
  - destruct (length l <? mi_max s).
    + rewrite flat_insert_ok by auto. eexists. split; [reflexivity|]. split; auto.
    + destruct (flat_contains_ok l j HS) as ([|] & E & Hb); rewrite E.
      * exists s. split; auto. split; auto. split; auto. split; auto. intros a b. rewrite <- HP. split; auto.
        intros [H|[-> ->]]; auto. apply HP. rewrite En. apply Hb; auto.
      * eexists. split; [reflexivity|]. split; auto. apply KEY. simpl. now rewrite inserts_sorted_id.
  - eexists. split; [reflexivity|]. split; auto.
Qed.

Lemma nth_vresize {A} n (x : A) l i : nth i (vresize n x l) x = if i <? n then nth i l x else x.
Proof.
  unfold vresize. destruct (Nat.lt_ge_cases i (length (firstn n l))) as [H|H].
  - rewrite app_nth1 by auto. rewrite firstn_length in H. destruct (Nat.ltb_spec i n); [|lia].
    rewrite <- (firstn_skipn n l) at 2. rewrite app_nth1; auto. rewrite firstn_length. lia.
  - rewrite app_nth2 by auto. rewrite nth_repeat. rewrite firstn_length in H. destruct (Nat.ltb_spec i n); auto.
    symmetry. apply nth_overflow. lia.
Qed.

Lemma mis_resize_ok s P r c : mis_inv s P -> mis_inv (mis_resize s r c) (fun i j => P i j /\ i < r).
Proof.
  intros (HL & HF & HP). split; [|split].
  - simpl. unfold vresize. rewrite app_length, firstn_length, repeat_length. lia.
  - simpl. unfold vresize. apply Forall_app. split; [apply Forall_firstn; auto|].
    apply Forall_forall. intros x Hx. apply repeat_spec in Hx. subst. constructor.
  - intros i j. simpl. rewrite nth_vresize, HP. destruct (Nat.ltb_spec i r); simpl; intuition lia.
Qed.

Lemma mis_inv_ext s P Q : (forall i j, P i j <-> Q i j) -> mis_inv s P -> mis_inv s Q.
Proof. intros H (A & B & C). split; auto. split; auto. intros. rewrite <- H. auto. Qed.

Lemma mis_run cmds : forall s P, mis_inv s P -> rows_exist (mi_rows s) cmds ->
  exists s', rrun mis_step s cmds = ROk s' tt /\
    mis_inv s' (fold_left (fun P c => match c with
                        | MAdd a b => fun i j => P i j \/ (i = a /\ j = b)
                        | MResize r _ => fun i j => P i j /\ i < r end) cmds P) /\
    mi_rows s' = cur_rows (mi_rows s) cmds /\ mi_cols s' = cur_cols (mi_cols s) cmds.
Proof.
  induction cmds as [|[i j|r c] t IH]; intros s P HI HR; simpl in *.
  - exists s. auto.
  - destruct HR as [H1 H2]. destruct (mis_add_ok s P i j HI H1) as (s1 & E1 & I1 & R1 & C1). rewrite E1.
    destruct (IH s1 _ I1) as (s' & E' & I' & R' & C'); [congruence|]. exists s'. rewrite R', C', R1, C1. auto.
  - destruct (IH (mis_resize s r c) _ (mis_resize_ok s P r c HI) HR) as (s' & E' & I' & R' & C'). exists s'. auto.
Qed.

Lemma mis_new_inv r c mv : mis_inv (mis_new r c mv) (fun _ _ => False).
Proof.
  split; [simpl; apply repeat_length|]. split; simpl.
  - apply Forall_forall. intros x Hx. apply repeat_spec in Hx. subst. constructor.
  - intros i j. rewrite nth_repeat. simpl. tauto.
Qed.

Lemma fold_add_seq (f : nat -> nat) n a : fold_left (fun e i => e + f i) (seq 0 n) a = a + list_sum (map f (seq 0 n)).
Proof.
  generalize (seq 0 n). intros l. revert a. induction l; intros b; simpl; [lia|]. rewrite IHl. lia.
Qed.
Lemma list_sum_concat {A} (l : list (list A)) : list_sum (map (@length A) l) = length (concat l).
Proof. induction l; simpl; auto. rewrite app_length. auto. Qed.

Lemma mis_size_concat s P : mis_inv s P -> mis_size s = length (concat (map contents (mi_idx s))).
Proof.
  intros (HL & _ & _). unfold mis_size. rewrite fold_add_seq. simpl. rewrite <- list_sum_concat, map_map. f_equal.
  unfold mis_rowsize. rewrite <- HL. apply nth_ext with (d := 0) (d' := 0); rewrite !map_length, ?seq_length; auto.
  intros i Hi. rewrite (nth_indep _ 0 (length (contents (nth (length (mi_idx s)) (mi_idx s) (Flat nil))))) by (rewrite map_length, seq_length; auto).
  rewrite (map_nth (fun i0 => length (contents (nth i0 (mi_idx s) (Flat nil))))), seq_nth by auto. simpl.
  rewrite (nth_indep _ 0 (length (contents (Flat nil)))) by (rewrite map_length; auto).
  now rewrite (map_nth (fun x => length (contents x))).
Qed.

(** C11, first part *)
Theorem C11_collects_positions rows cols maxv cmds : rows_exist rows cmds ->
  exists s, rrun mis_step (mis_new rows cols maxv) cmds = ROk s tt /\
    mi_rows s = cur_rows rows cmds /\ mi_cols s = cur_cols cols cmds /\
    (forall i, let c := contents (nth i (mi_idx s) (Flat nil)) in
        StronglySorted lt c /\ (forall j, In j c <-> positions cmds i j)) /\
    (forall i, exactly (mis_rowsize s i) (fun j => positions cmds i j)) /\
    exactly (mis_size s) (fun ij => positions cmds (fst ij) (snd ij)).
Proof.
  intros HR. destruct (mis_run cmds (mis_new rows cols maxv) _ (mis_new_inv rows cols maxv) HR) as (s & E & HI & H1 & H2).
  exists s. split; auto. split; auto. split; auto. fold (positions cmds) in HI. pose proof HI as (HL & HF & HP).
  assert (HS : forall i, ssorted (contents (nth i (mi_idx s) (Flat nil)))).
  { intros i. rewrite Forall_forall in HF. destruct (Nat.lt_ge_cases i (length (mi_idx s))); [apply HF, nth_In; auto|].
    rewrite nth_overflow by auto. constructor. }
  split; [|split].
  - intros i c. split; [apply HS|]. intros j. symmetry. apply HP.
  - intros i. exists (contents (nth i (mi_idx s) (Flat nil))). split; [apply ss_nodup, HS|]. split; auto. intros j. symmetry. apply HP.
  - rewrite (mis_size_concat s _ HI). apply exactly_rows.
    + intros i c Hc. rewrite nth_error_map in Hc. destruct (nth_error (mi_idx s) i) eqn:Ei; [|discriminate].
      inversion Hc; subst. pose proof (nth_error_nth _ _ (Flat nil) Ei) as En. rewrite <- En. split; [apply ss_nodup, HS|].
      intros j. symmetry. apply HP.
    + intros i j H. rewrite map_length. apply HP in H. destruct (Nat.lt_ge_cases i (length (mi_idx s))); auto.
      rewrite nth_overflow in H by auto. destruct H.
Qed.

(** C11, import: the positions of the imported matrix, shifted by the offsets, are added *)
Lemma positions_adds cmds l i j : positions (cmds ++ map (fun ij => MAdd (fst ij) (snd ij)) l) i j <-> positions cmds i j \/ In (i, j) l.
Proof.
  unfold positions. rewrite fold_left_app. generalize (fold_left (fun (P : nat -> nat -> Prop) c => match c with
    | MAdd a b => fun i j => P i j \/ (i = a /\ j = b) | MResize r _ => fun i j => P i j /\ i < r end) cmds (fun _ _ => False)).
  induction l as [|[a b] t IH]; intros P; simpl; [tauto|]. rewrite IH. simpl. split.
  - intros [[H|[-> ->]]|H]; auto.
  - intros [H|[H|H]]; auto. inversion H; subst. auto.
Qed.
Theorem C11_import {V} rows cols maxv cmds (M : list (list (nat * V))) ro co :
  rows_exist rows cmds -> (forall i row, nth_error M i = Some row -> row <> nil -> i + ro < cur_rows rows cmds) ->
  exists s s', rrun mis_step (mis_new rows cols maxv) cmds = ROk s tt /\ mis_import s M ro co = ROk s' tt /\
    mi_rows s' = mi_rows s /\ mi_cols s' = mi_cols s /\
    (forall i, let c := contents (nth i (mi_idx s') (Flat nil)) in
      StronglySorted lt c /\
      forall j, In j c <-> positions cmds i j \/ exists i0 row e, nth_error M i0 = Some row /\ In e row /\ i = i0 + ro /\ j = fst e + co).
Proof.
  intros HR HM. destruct (mis_run cmds (mis_new rows cols maxv) _ (mis_new_inv rows cols maxv) HR) as (s & E & HI & H1 & H2).
  simpl in H1. fold (positions cmds) in HI.
  set (L := concat (map (fun ir => map (fun e => (fst ir + ro, fst e + co)) (snd ir)) (combine (seq 0 (length M)) M))).
  assert (HL : forall i j, In (i, j) L <-> exists i0 row e, nth_error M i0 = Some row /\ In e row /\ i = i0 + ro /\ j = fst e + co).
  { intros i j. unfold L. rewrite in_concat. split.
    - intros (l & Hl & Hij). apply in_map_iff in Hl. destruct Hl as ([i0 row] & <- & Hc). apply in_map_iff in Hij.
      destruct Hij as (e & Ee & He). simpl in Ee. inversion Ee; subst. apply combine_In_nth in Hc. destruct Hc as (p & Hp1 & Hp2).
      exists i0, row, e. repeat split; auto. assert (p < length M) by (eapply nth_error_lt; eauto).
      apply nth_error_nth with (d := 0) in Hp1. rewrite seq_nth in Hp1 by auto. simpl in Hp1. congruence.
    - intros (i0 & row & e & Hn & He & -> & ->). exists (map (fun e => (i0 + ro, fst e + co)) row). split.
      + apply in_map_iff. exists (i0, row). split; auto. eapply nth_error_In with (n := i0).
        assert (i0 < length M) by (eapply nth_error_lt; eauto).
        apply nth_error_combine; auto. rewrite (nth_error_nth' _ 0) by (rewrite seq_length; auto). now rewrite seq_nth.
      + apply in_map_iff. exists e. auto. }
  assert (HLr : forall ij, In ij L -> fst ij < mi_rows s).
  { intros [i j] H. apply HL in H. destruct H as (i0 & row & e & Hn & He & -> & ->). rewrite H1. apply (HM i0 row Hn). intros ->. destruct He. }
  assert (Hrun : forall l s P, mis_inv s P -> (forall ij, In ij l -> fst ij < mi_rows s) ->
    exists s', rrun (fun s ij => mis_add s (fst ij) (snd ij)) s l = ROk s' tt /\ mis_inv s' (fun i j => P i j \/ In (i, j) l) /\ mi_rows s' = mi_rows s /\ mi_cols s' = mi_cols s).
  { induction l as [|[a b] t IH]; intros s0 P I0 Hr; simpl.
    - exists s0. split; auto. split; auto. eapply mis_inv_ext; [|exact I0]. simpl. tauto.
    - destruct (mis_add_ok s0 P a b I0) as (s1 & E1 & I1 & R1 & C1); [apply (Hr (a, b)); left; auto|]. rewrite E1.
      destruct (IH s1 _ I1) as (s' & E' & I' & R' & C'); [intros ij Hij; rewrite R1; apply Hr; right; auto|].
      exists s'. split; auto. split; [|split; congruence]. eapply mis_inv_ext; [|exact I']. intros i j. simpl. split.
      + intros [[H|[-> ->]]|H]; auto.
      + intros [H|[H|H]]; auto. inversion H; subst. auto. }
  destruct (Hrun L s _ HI HLr) as (s' & E' & (I1 & I2 & I3) & R' & C'). exists s, s'. repeat (split; auto).
  - destruct (Nat.lt_ge_cases i (length (mi_idx s'))).
    + rewrite Forall_forall in I2. apply I2, nth_In; auto.
    + rewrite nth_overflow by auto. constructor.
  - intros Hj. apply I3 in Hj. rewrite HL in Hj. exact Hj.
  - intros Hj. apply I3. rewrite HL. exact Hj.
Qed.

Section ExportProofs.
  Context {V : Type}.
  Variables dv zv : V.
  Notation st := (@st V).

  Lemma setIndices_ok (s : st) n m nnz cs i l : phase2 s n m nnz cs -> nth_error cs i = Some (nil, length l) ->
    ssorted l -> Forall (fun c => c < m) l ->
    exists s', setIndicesNoSort s i l = ROk s' tt /\ phase2 s' n m nnz (upd cs i (l, length l)).
  Proof.
    intros P Hp HS HF. destruct (Nat.eq_dec (length l) 0) as [Hz|Hz].
    { assert (El : l = nil) by (destruct l; auto; discriminate). subst l.
      pose proof (p2_row _ _ _ _ _ _ _ P Hp) as Hrow. exists s. split.
      - destruct s as [h M]. cbn [snd] in Hrow. unfold setIndicesNoSort. rewrite Hrow. reflexivity.
      - replace (upd cs i (nil, length (@nil nat))) with cs; auto. symmetry.
        apply nth_error_nth with (d := (nil, 0)) in Hp. rewrite <- Hp. apply upd_nth_same. }
    set (p := (@nil nat, length l)) in *. set (q := (l, length l)).
    assert (Hq : slot_ok m q) by (unfold slot_ok, q; simpl; auto).
    pose proof (p2_slots _ _ _ _ _ P) as HFS. assert (Hps : slot_ok m p) by (rewrite Forall_forall in HFS; apply HFS; eapply nth_error_In; eauto).
    pose proof (p2_row _ _ _ _ _ _ _ P Hp) as Hrow.
    pose proof (slot_fits m cs i p nnz HFS Hp (p2_total _ _ _ _ _ P)) as Hfit.
    pose proof (nth_error_lt _ _ _ Hp) as Hi.
    assert (Hsl : slot m q = l) by (unfold slot, q; simpl; rewrite Nat.sub_diag; apply app_nil_r).
    destruct s as [h M]. destruct P as [Pm Ps Pn Pmm Pz Pa Pd PL Pr PF PT PJ0 PJ]. simpl fst in *; simpl snd in *.
    unfold setIndicesNoSort. rewrite Hrow. unfold ptr_row, p. cbn [snd]. unfold p in Hfit. cbn [snd] in Hfit.
    { assert (H0 : 0 < length l) by lia. assert (HM : forall T (a b : T), match l with nil => a | _ :: _ => b end = b) by (intros; destruct l; auto; simpl in Hz; lia).
      destruct (Nat.ltb_spec 0 (length l)); [|lia]. cbn [rsize rj].
      destruct (PJ ltac:(lia)) as (tail & HJ & HJL). rewrite HJ, HJL.
      rewrite HM, (proj2 (Nat.leb_le _ _) Hfit), Nat.eqb_refl.
      eexists. split; [reflexivity|].
      assert (HSp : splice (length (cslots m (firstn i cs))) l (cslots m cs ++ tail) = cslots m (upd cs i q) ++ tail).
      { rewrite (cslots_split m cs i p Hp), <- !app_assoc.
        rewrite splice_app_mid by (rewrite slot_length by auto; reflexivity).
        rewrite cslots_upd by auto. rewrite Hsl. rewrite <- !app_assoc. reflexivity. }
      rewrite HSp.
      assert (Hlen : length (cslots m (upd cs i q) ++ tail) = nnz).
      { rewrite <- HSp. rewrite splice_length; auto. lia. }
      constructor; cbn [fst snd]; auto.
      + rewrite upd_length; auto.
      + rewrite (map_snd_upd cs i p q Hp eq_refl). exact Pr.
      + apply Forall_upd; auto.
      + rewrite (map_snd_upd cs i p q Hp eq_refl). auto.
      + intros _. exists tail. split; auto. eapply jarr_set_jarr; eauto.
    }
  Qed.

  (** rows [0,k) filled, the others still empty *)
  Definition filled (rows : list (list nat)) (k : nat) : list (list nat * nat) :=
    map (fun l => (l, length l)) (firstn k rows) ++ map (fun l => (nil, length l)) (skipn k rows).

  Lemma filled_step rows k l : nth_error rows k = Some l -> nth_error (filled rows k) k = Some (nil, length l) /\
    upd (filled rows k) k (l, length l) = filled rows (S k).
  Proof.
    intros H. pose proof (nth_error_lt _ _ _ H) as HL.
    assert (E : skipn k rows = l :: skipn (S k) rows).
    { clear HL. revert k H. induction rows; intros [|k] H; simpl in *; try discriminate; [congruence|auto]. }
    assert (F : firstn (S k) rows = firstn k rows ++ [l]).
    { clear HL E. revert k H. induction rows; intros [|k] H; simpl in *; try discriminate; [congruence|]. now rewrite <- IHrows. }
    assert (HLk : length (map (fun l => (l, length l)) (firstn k rows)) = k) by (rewrite map_length, firstn_length; lia).
    unfold filled. rewrite E, F. split.
    - rewrite nth_error_app2, HLk, Nat.sub_diag by lia. reflexivity.
    - rewrite map_app, <- app_assoc. cbn [map app]. revert HLk. generalize (map (fun l0 : list nat => (l0, length l0)) (firstn k rows)).
      generalize (map (fun l0 : list nat => (@nil nat, length l0)) (skipn (S k) rows)). intros z a. clear. revert k. induction a; intros [|k] H; simpl in *; try discriminate; auto. f_equal. apply IHa. lia.
  Qed.

  Lemma fill_run rows n m nnz : Forall (fun l => ssorted l /\ Forall (fun c => c < m) l) rows ->
    forall j k (s : st), k + j = length rows -> phase2 s n m nnz (filled rows k) ->
    exists s', rrun (fun s i => setIndicesNoSort s i (nth i rows nil)) s (seq k j) = ROk s' tt /\ phase2 s' n m nnz (filled rows (length rows)).
  Proof.
    intros HF. induction j as [|j IH]; intros k s HL P; simpl.
    - exists s. split; auto. replace (length rows) with k by lia. auto.
    - destruct (nth_error_ex rows k ltac:(lia)) as [l Hl]. destruct (filled_step rows k l Hl) as [F1 F2].
      rewrite Forall_forall in HF. destruct (HF l (nth_error_In _ _ Hl)) as [HS HB].
      destruct (setIndices_ok s n m nnz _ k l P F1 HS HB) as (s1 & E1 & P1). rewrite (nth_error_nth _ _ nil Hl), E1.
      rewrite F2 in P1. apply IH; auto. lia.
  Qed.

  Lemma sizes_run (f : nat -> nat) n (s0 : st) : mmode (snd s0) = Random -> mstage (snd s0) = Building -> mrows (snd s0) = repeat (mkrow 0 JNull ANull) n ->
    exists s, rrun (fun s i => setrowsize s i (f i)) s0 (seq 0 n) = ROk s tt /\ sizing s s0 (map f (seq 0 n)).
  Proof.
    intros Hm Hs Hr.
    assert (HZ : sizing s0 s0 (repeat 0 n)).
    { split; auto. destruct s0 as [h M]. simpl in *. destruct M; simpl in *; unfold set_rows; simpl. f_equal. rewrite Hr. clear. induction n; simpl; [reflexivity|]. rewrite IHn. reflexivity. }
    destruct (rs_run s0 (map (fun i => SetRS i (f i)) (seq 0 n)) s0 (repeat 0 n) Hm Hs HZ) as (s & E & szs & S1 & S2 & S3).
    { rewrite Forall_forall. intros c Hc. apply in_map_iff in Hc. destruct Hc as (i & <- & Hi). apply in_seq in Hi. rewrite repeat_length. simpl. lia. }
    exists s. split.
    - rewrite <- E. clear. generalize (seq 0 n). intros l. revert s0. induction l; intros s0; simpl; auto.
      destruct (setrowsize s0 a (f a)); auto.
    - rewrite repeat_length in S2, S3. replace (map f (seq 0 n)) with szs; auto.
      apply nth_ext with (d := 0) (d' := 0); [rewrite map_length, seq_length; auto|]. intros i Hi. rewrite S2 in Hi. rewrite S3 by auto.
      rewrite nth_repeat. rewrite (nth_indep _ 0 (f 0)) by (rewrite map_length, seq_length; auto). rewrite map_nth, seq_nth by auto. simpl.
      assert (G : forall l a, NoDup l -> In i l -> declared_from a (map (fun i0 => SetRS i0 (f i0)) l) i = f i).
      { assert (G0 : forall l a, ~ In i l -> declared_from a (map (fun i0 => SetRS i0 (f i0)) l) i = a).
        { induction l as [|x l IH]; intros a Hn; simpl in *; auto. destruct (Nat.eqb_spec i x); [subst; tauto|]. apply IH. tauto. }
        induction l as [|x l IH]; intros a HN HI; simpl in *; [tauto|]. inversion HN; subst.
        destruct (Nat.eqb_spec i x) as [->|Hn]; [apply G0; auto|]. apply IH; auto. destruct HI; [congruence|auto]. }
      apply G; [apply seq_NoDup|apply in_seq; lia].
  Qed.

  (** C11, second part: exporting to a matrix in whatever state an object can be in (not in implicit mode) builds a matrix
      with exactly the collected positions *)
  Theorem C11_export rows cols maxv cmds (M : st) : rows_exist rows cmds -> reachable dv zv M -> mmode (snd M) <> Implicit ->
    (forall i j, positions cmds i j -> j < cur_cols cols cmds) ->
    exists s M', rrun mis_step (mis_new rows cols maxv) cmds = ROk s tt /\ mis_export dv s M = ROk M' tt /\
      shows M' (cur_rows rows cmds) (cur_cols cols cmds) (positions cmds) (fun _ _ => dv).
  Proof.
    intros HR HM Hm HC. destruct (mis_run cmds (mis_new rows cols maxv) _ (mis_new_inv rows cols maxv) HR) as (s & E & HI & H1 & H2).
    simpl in H1, H2. rewrite <- H1, <- H2. rewrite <- H2 in HC. fold (positions cmds) in HI. pose proof HI as (HL & HF & HP).
    apply reachable_sane in HM.
    destruct (setSize_fresh dv M (mi_rows s) (mi_cols s) 0 (mmode (snd M)) HM eq_refl Hm) as (M1 & E1 & F1).
    assert (X : exists M2, setBuildMode M1 Random = ROk M2 tt /\ fresh M2 Random (mi_rows s) (mi_cols s) 0).
    { destruct M1 as [h M1]. destruct F1 as [G1 G2 G3 G4 G5 G6 G7 G8 G9]. cbn [fst snd] in *. exists (h, set_mode M1 Random). split.
      - unfold setBuildMode. rewrite G2, G1. destruct (mmode (snd M)); auto. congruence.
      - constructor; auto. }
    destruct X as (M2 & E2 & F2).
    set (R := map contents (mi_idx s)).
    assert (HLR : length R = mi_rows s) by (unfold R; rewrite map_length; auto).
    assert (Hnth : forall i, nth i R nil = contents (nth i (mi_idx s) (Flat nil))).
    { intros i. unfold R. change nil with (contents (Flat nil)) at 1. apply map_nth. }
    destruct (sizes_run (mis_rowsize s) (mi_rows s) M2 (fr_mode _ _ _ _ _ F2) (fr_stage _ _ _ _ _ F2) (fr_rows _ _ _ _ _ F2)) as (M3 & E3 & S3).
    assert (Hsz : map (mis_rowsize s) (seq 0 (mi_rows s)) = map (@length nat) R).
    { rewrite <- HLR. apply nth_ext with (d := 0) (d' := 0); rewrite !map_length, seq_length; auto. intros i Hi.
      rewrite (nth_indep _ 0 (mis_rowsize s 0)) by (rewrite map_length, seq_length; auto). rewrite map_nth, seq_nth by auto.
      rewrite (nth_indep _ 0 (length (@nil nat))) by (rewrite map_length; auto). rewrite map_nth, Hnth. reflexivity. }
    rewrite Hsz in S3.
    destruct (endrowsizes_ok dv M2 M3 (mi_rows s) (mi_cols s) 0 _ F2 S3) as (M4 & E4 & P4).
    { rewrite map_length; auto. }
    { left; auto. }
    assert (HFR : Forall (fun l => ssorted l /\ Forall (fun c => c < mi_cols s) l) R).
    { apply Forall_forall. intros l Hl. apply In_nth_error in Hl. destruct Hl as [i Hi].
      pose proof (nth_error_nth _ _ nil Hi) as Hn. rewrite Hnth in Hn. unfold R in Hi. rewrite nth_error_map in Hi.
      destruct (nth_error (mi_idx s) i) as [r|] eqn:Er; [|discriminate]. injection Hi as Hi. rewrite <- Hi in *. split.
      - rewrite Forall_forall in HF. apply HF. eapply nth_error_In; eauto.
      - apply Forall_forall. intros j Hj. apply (HC i j). apply HP. rewrite Hn. auto. }
    assert (P4' : phase2 M4 (mi_rows s) (mi_cols s) (reserved 0 (list_sum (map (@length nat) R))) (filled R 0)).
    { unfold filled. simpl. rewrite map_map in P4. exact P4. }
    destruct (fill_run R _ _ _ HFR (length R) 0 M4 eq_refl P4') as (M5 & E5 & P5).
    destruct (endindices_ok dv M5 _ _ _ _ P5) as (M6 & E6 & C6 & _).
    exists s, M6. split; auto. split.
    - unfold mis_export. rewrite E1. simpl rbind. rewrite E2. simpl rbind. rewrite E3. simpl rbind. rewrite E4. simpl rbind.
      rewrite HLR in E5.
      replace (rrun (fun s0 i => setIndicesNoSort s0 i (contents (nth i (mi_idx s) (Flat nil)))) M4 (seq 0 (mi_rows s)))
        with (rrun (fun s0 i => setIndicesNoSort s0 i (nth i R nil)) M4 (seq 0 (mi_rows s))).
      + rewrite E5. simpl rbind. exact E6.
      + generalize (seq 0 (mi_rows s)), M4. intros q. induction q; intros M0; simpl; auto. rewrite Hnth.
        destruct (setIndicesNoSort M0 a (contents (nth a (mi_idx s) (Flat nil)))); auto.
    - assert (HR6 : map fst (filled R (length R)) = R).
      { unfold filled. rewrite firstn_all, skipn_all. simpl. rewrite app_nil_r, map_map. simpl. apply map_id. }
      rewrite HR6 in C6. eapply built_shows; [left; exact C6| |].
      + intros i c Hc j. rewrite HP, <- Hnth, (nth_error_nth _ _ nil Hc). tauto.
      + intros i c v p j x Hc Hv _ Hx. unfold dvals in Hv. rewrite nth_error_map, Hc in Hv. simpl in Hv.
        inversion Hv; subst v. apply nth_error_In in Hx. apply repeat_spec in Hx. auto.
  Qed.
End ExportProofs.

(** concrete case: threshold 2, so row 0 switches to the tree; a duplicate, a shrink and a regrow *)
Definition ex_cmds := [MAdd 0 5; MAdd 0 1; MAdd 0 3; MAdd 0 5; MAdd 2 0; MAdd 1 4; MResize 2 6; MResize 3 7; MAdd 2 6].
Example C11_nonvacuous : rows_exist 3 ex_cmds /\
  match rrun mis_step (mis_new 3 7 2) ex_cmds with
  | ROk s _ => mi_idx s = [Tree [1;3;5]; Flat [4]; Flat [6]] /\ mis_size s = 5 /\
               match mis_export 0 s (nil, @mat_empty nat) with
               | ROk M _ => view M = Some [[(1,0);(3,0);(5,0)]; [(4,0)]; [(6,0)]] | _ => False end
  | _ => False end.
Proof. split; [repeat split; auto|]. vm_compute. auto. Qed.
Print Assumptions C11_collects_positions.
Print Assumptions C11_export.
Print Assumptions C11_import.
