(** * Proofs about random build mode *)
From Coq Require Import List Arith Bool Lia Sorted Permutation.
From Verif Require Import Sums Outcome BcrsModel BcrsAux.
Import ListNotations.

Section RandomMode.
  Context {V : Type}.
  Variables dv zv : V.
  Notation mat := (@mat V).
  Notation st := (@st V).
  Notation row := (@row V).

  (** ** the state right after construction / setSize *)
  Definition jfresh (h : heap) (M : mat) (nnz : nat) : Prop :=
    (nnz = 0 -> mjid M = None) /\
    (0 < nnz -> exists J, jarr h M = Some J /\ length J = nnz).

  Record fresh (s : st) (bm : bmode) (n m nnz : nat) : Prop := {
    fr_mode : mmode (snd s) = bm;
    fr_stage : mstage (snd s) = Building;
    fr_n : mn (snd s) = n;
    fr_m : mm (snd s) = m;
    fr_nnz : mnnz (snd s) = nnz;
    fr_asize : masize (snd s) = nnz;
    fr_adata : madata (snd s) = None;
    fr_rows : mrows (snd s) = repeat (mkrow 0 JNull ANull) n;
    fr_j : jfresh (fst s) (snd s) nnz
  }.

  Lemma nth_error_snoc {A} (l : list A) x : nth_error (l ++ [x]) (length l) = Some x.
  Proof. rewrite nth_error_app2 by lia. rewrite Nat.sub_diag. reflexivity. Qed.

  (** allocate without values on an empty object *)
  Lemma allocate_fresh h (M : mat) n m nnz bm :
    mmode M = bm -> mrows M = nil -> madata M = None -> mjid M = None ->
    exists s', allocate dv (h, M) n m nnz true false = ROk s' tt /\ fresh s' bm n m nnz
               /\ mover (snd s') = mover M /\ mavg (snd s') = mavg M /\ mcbs (snd s') = mcbs M.
  Proof.
    intros Hm Hr Ha Hj. unfold allocate. cbn -[Nat.ltb repeat].
    rewrite Hr. destruct n as [|n].
    - change (0 <? 0) with false. cbn -[Nat.ltb repeat]. rewrite Hj. destruct (Nat.ltb_spec 0 nnz) as [Hz|Hz].
      + eexists. split; [reflexivity|]. split; [|auto].
        constructor; cbn -[repeat]; auto; [].
        split; [intros; lia|]. intros _. exists (repeat 0 nnz). split; [|apply repeat_length].
        unfold jarr. cbn -[repeat]. apply nth_error_snoc.
      + eexists. split; [reflexivity|]. split; [|auto].
        constructor; cbn -[repeat]; auto; []. split; [auto|intros; lia].
    - cbn -[Nat.ltb repeat]. rewrite (proj2 (Nat.ltb_lt 0 (S n))) by lia.
      cbn -[Nat.ltb repeat]. rewrite Hj. destruct (Nat.ltb_spec 0 nnz) as [Hz|Hz].
      + eexists. split; [reflexivity|]. split; [|auto].
        constructor; cbn -[repeat]; auto; [].
        split; [intros; lia|]. intros _. exists (repeat 0 nnz). split; [|apply repeat_length].
        unfold jarr. cbn -[repeat]. apply nth_error_snoc.
      + eexists. split; [reflexivity|]. split; [|auto].
        constructor; cbn -[repeat]; auto; []. split; [auto|intros; lia].
  Qed.

  Lemma mat_new_fresh h n m nnz bm :
    exists s, mat_new dv h n m nnz bm = ROk s tt /\ fresh s bm n m nnz.
  Proof.
    destruct (allocate_fresh h (set_mode (@mat_empty V) bm) n m nnz bm) as (s & H & F & _); try reflexivity.
    exists s. split; auto.
  Qed.

  (** ** row sizes *)
  Inductive rscmd := SetRS (i k : nat) | IncRS (i k : nat).
  Definition rs_index (c : rscmd) := match c with SetRS i _ | IncRS i _ => i end.
  Definition rs_step (s : st) (c : rscmd) : res st unit :=
    match c with SetRS i k => setrowsize s i k | IncRS i k => incrementrowsize s i k end.

  (** specification: the size declared for row [i] *)
  Fixpoint declared_from (a : nat) (cs : list rscmd) (i : nat) : nat :=
    match cs with
    | nil => a
    | SetRS i' k :: t => declared_from (if i =? i' then k else a) t i
    | IncRS i' k :: t => declared_from (if i =? i' then a + k else a) t i
    end.
  Definition declared := declared_from 0.

  Definition row0 (k : nat) : row := mkrow k JNull ANull.

  Definition sizing (s s0 : st) (sizes : list nat) : Prop :=
    fst s = fst s0 /\ snd s = set_rows (snd s0) (map row0 sizes).

  Lemma set_rows_twice (M : mat) a b : set_rows (set_rows M a) b = set_rows M b.
  Proof. reflexivity. Qed.

  Lemma rs_step_ok s0 s sizes c :
    mmode (snd s0) = Random -> mstage (snd s0) = Building ->
    sizing s s0 sizes -> rs_index c < length sizes ->
    exists s', rs_step s c = ROk s' tt /\
               sizing s' s0 (upd sizes (rs_index c)
                                 (declared_from (nth (rs_index c) sizes 0) [c] (rs_index c))).
  Proof.
    intros Hm Hst [H1 H2] Hi. destruct s as [h M]. simpl in *. subst h M.
    destruct (nth_error_ex sizes _ Hi) as [k0 Hk0].
    pose proof (nth_error_nth _ _ 0 Hk0) as Hn.
    destruct c as [i k|i k]; simpl in *; rewrite ?Nat.eqb_refl; rewrite Hm, Hst; simpl;
      rewrite nth_error_map, Hk0; simpl; eexists; (split; [reflexivity|]);
      (split; [reflexivity|]); simpl; rewrite set_rows_twice; f_equal;
      rewrite upd_map; rewrite ?Hn; reflexivity.
  Qed.

  Lemma rs_step_oob s0 s sizes c :
    mmode (snd s0) = Random -> mstage (snd s0) = Building ->
    sizing s s0 sizes -> length sizes <= rs_index c -> rs_step s c = RUB.
  Proof.
    intros Hm Hst [H1 H2] Hi. destruct s as [h M]. simpl in *. subst h M.
    assert (Hk0 : nth_error (map row0 sizes) (rs_index c) = None)
      by (apply nth_error_None; rewrite map_length; auto).
    destruct c as [i k|i k]; simpl in *; rewrite Hm, Hst; simpl; rewrite Hk0; reflexivity.
  Qed.

  Lemma declared_from_cons a c t i : declared_from a (c :: t) i = declared_from (declared_from a [c] i) t i.
  Proof. destruct c; reflexivity. Qed.

  Lemma declared_other a c i : i <> rs_index c -> declared_from a [c] i = a.
  Proof. destruct c; simpl; intros H; destruct (Nat.eqb_spec i i0); congruence. Qed.

  Lemma rs_run s0 cs : forall s sizes,
    mmode (snd s0) = Random -> mstage (snd s0) = Building ->
    sizing s s0 sizes -> Forall (fun c => rs_index c < length sizes) cs ->
    exists s', rrun rs_step s cs = ROk s' tt /\
      exists sizes', sizing s' s0 sizes' /\ length sizes' = length sizes /\
                     forall i, i < length sizes -> nth i sizes' 0 = declared_from (nth i sizes 0) cs i.
  Proof.
    induction cs as [|c t IH]; intros s sizes Hm Hst HS HF; simpl rrun.
    - exists s. split; auto. exists sizes. auto.
    - inversion HF as [|? ? Hc Ht]; subst.
      destruct (rs_step_ok s0 s sizes c Hm Hst HS Hc) as (s1 & E1 & HS1). rewrite E1.
      edestruct IH as (s' & E' & sizes' & HS' & HL & HN); [exact Hm|exact Hst|exact HS1| |].
      { rewrite upd_length. exact Ht. }
      exists s'. split; auto. exists sizes'. split; auto. rewrite upd_length in *. split; auto.
      intros i Hi. rewrite HN by auto. rewrite (declared_from_cons (nth i sizes 0) c t i). f_equal.
      destruct (Nat.eq_dec i (rs_index c)) as [->|Hne].
      + rewrite nth_upd_eq by auto. reflexivity.
      + rewrite nth_upd_ne by auto. rewrite declared_other; auto.
  Qed.

  (** ** slots *)
  Definition slot (m : nat) (p : list nat * nat) : list nat := fst p ++ repeat m (snd p - length (fst p)).

  Definition slot_ok (m : nat) (p : list nat * nat) : Prop :=
    ssorted (fst p) /\ Forall (fun c => c < m) (fst p) /\ length (fst p) <= snd p.

  Lemma slot_length m p : slot_ok m p -> length (slot m p) = snd p.
  Proof. intros (_ & _ & H). unfold slot. rewrite app_length, repeat_length. lia. Qed.

  Lemma add_slot_ok m col p :
    slot_ok m p -> col < m -> (In col (fst p) \/ length (fst p) < snd p) ->
    add_slot m col (slot m p) = Ok (slot m (set_insert col (fst p), snd p)) /\
    slot_ok m (set_insert col (fst p), snd p).
  Proof.
    destruct p as [cols k]. intros (HS & HF & HL) Hc Hsp. unfold slot, slot_ok in *. simpl in *.
    destruct (ss_split cols col HS) as (l1 & l2 & -> & H1 & H2).
    assert (Hg : Forall (fun y => col <= y) (l2 ++ repeat m (k - length (l1 ++ l2)))).
    { apply Forall_app. split; auto. apply Forall_forall. intros y Hy. apply repeat_spec in Hy. lia. }
    unfold add_slot. rewrite <- app_assoc. rewrite lower_bound_app by auto.
    rewrite set_insert_app by auto.
    rewrite nth_error_app2 by lia. rewrite Nat.sub_diag.
    assert (HFI : Forall (fun c => c < m) (l1 ++ set_insert col l2)).
    { apply Forall_app in HF. destruct HF as [HF1 HF2]. apply Forall_app. split; auto.
      rewrite Forall_forall in *. intros y Hy. apply set_insert_In in Hy. destruct Hy as [->|Hy]; auto. }
    assert (HSI : ssorted (l1 ++ set_insert col l2)).
    { rewrite <- set_insert_app by auto. apply set_insert_ss; auto. }
    destruct (in_dec Nat.eq_dec col (l1 ++ l2)) as [Hin|Hnin].
    - assert (Hid : l1 ++ set_insert col l2 = l1 ++ l2).
      { rewrite <- set_insert_app by auto. apply set_insert_idem; auto. }
      apply in_app_or in Hin. destruct Hin as [Hin|Hin].
      { rewrite Forall_forall in H1. specialize (H1 _ Hin). lia. }
      destruct l2 as [|c2 l2]; [destruct Hin|].
      assert (c2 = col).
      { apply ss_app_inv in HS. destruct HS as (_ & HS & _). inversion HS as [|? ? HS1 HS2]; subst.
        destruct Hin as [|Hin]; auto. rewrite Forall_forall in HS2. specialize (HS2 _ Hin).
        inversion H2; subst. lia. }
      subst c2. change (nth_error ((col :: l2) ++ repeat m (k - length (l1 ++ col :: l2))) 0) with (Some col). cbv iota. rewrite Nat.eqb_refl.
      rewrite Hid. rewrite <- app_assoc. split; [reflexivity|]. rewrite <- Hid. split; auto. split; auto.
      rewrite Hid; auto.
    - assert (Hlen : length (l1 ++ set_insert col l2) = S (length (l1 ++ l2))).
      { rewrite <- set_insert_app by auto. apply set_insert_length; auto. }
      destruct Hsp as [Hsp|Hsp]; [tauto|].
      assert (Hhd : (match nth_error (l2 ++ repeat m (k - length (l1 ++ l2))) 0 with
                     | Some c => c =? col | None => false end) = false).
      { destruct l2 as [|c2 l2]; simpl.
        - destruct (repeat m _) as [|z zs] eqn:E; auto. simpl.
          assert (In z (repeat m (k - length (l1 ++ [])))) by (rewrite E; left; auto).
          apply repeat_spec in H. subst. destruct (Nat.eqb_spec m col); [lia|auto].
        - destruct (Nat.eqb_spec c2 col); auto. subst. exfalso. apply Hnin. apply in_or_app. right; left; auto. }
      rewrite Hhd.
      rewrite skipn_app, skipn_all, Nat.sub_diag, skipn_O, app_nil_l.
      apply Forall_app in HF. destruct HF as [HF1 HF2].
      rewrite lower_bound_app; auto.
      2:{ apply Forall_forall. intros y Hy. apply repeat_spec in Hy. lia. }
      rewrite !app_length, repeat_length. rewrite !app_length in Hsp. rewrite !app_length in Hlen.
      destruct (Nat.eqb_spec (length l1 + length l2) (length l1 + (length l2 + (k - (length l1 + length l2))))); [lia|].
      split.
      + f_equal.
        assert (Hsk : skipn (S (length l1 + length l2)) (l1 ++ l2 ++ repeat m (k - (length l1 + length l2)))
                      = repeat m (k - (length l1 + length (set_insert col l2)))).
        { replace (S (length l1 + length l2)) with (length (l1 ++ l2) + 1) by (rewrite app_length; lia).
          rewrite app_assoc. rewrite skipn_add, skipn_app, skipn_all, Nat.sub_diag. simpl.
          replace (k - (length l1 + length l2)) with (S (k - (length l1 + length (set_insert col l2)))) by lia.
          reflexivity. }
        rewrite Hsk. rewrite firstn_app, firstn_all, Nat.sub_diag, firstn_O, app_nil_r.
        rewrite slice_app_mid. rewrite <- app_assoc. f_equal.
        assert (set_insert col l2 = col :: l2).
        { destruct l2 as [|c2 l2]; auto. simpl. inversion H2; subst.
          destruct (Nat.ltb_spec col c2); auto. destruct (Nat.eqb_spec col c2); [|lia].
          subst. exfalso. apply Hnin. apply in_or_app; right; left; auto. }
        rewrite H. reflexivity.
      + split; auto. split; auto. lia.
  Qed.

  Lemma add_slot_full m col p :
    slot_ok m p -> col < m -> ~ In col (fst p) -> snd p <= length (fst p) ->
    add_slot m col (slot m p) = Throw EBCRS.
  Proof.
    destruct p as [cols k]. intros (HS & HF & HL) Hc Hn Hk. unfold slot, slot_ok in *. simpl in *.
    replace (k - length cols) with 0 by lia. simpl. rewrite app_nil_r.
    destruct (ss_split cols col HS) as (l1 & l2 & -> & H1 & H2).
    unfold add_slot. rewrite lower_bound_app by auto.
    rewrite nth_error_app2 by lia. rewrite Nat.sub_diag.
    assert (Hhd : (match nth_error l2 0 with Some c => c =? col | None => false end) = false).
    { destruct l2 as [|c2 l2]; simpl; auto.
      destruct (Nat.eqb_spec c2 col); auto. subst. exfalso. apply Hn. apply in_or_app. right; left; auto. }
    rewrite Hhd. rewrite skipn_app, skipn_all, Nat.sub_diag. simpl.
    apply Forall_app in HF. destruct HF as [HF1 HF2].
    replace l2 with (l2 ++ []) at 1 by apply app_nil_r.
    rewrite lower_bound_app by (auto; constructor).
    rewrite app_length, Nat.eqb_refl. reflexivity.
  Qed.

  Lemma total_size_map0 sizes : total_size (map row0 sizes) = list_sum sizes.
  Proof. induction sizes; simpl; auto. Qed.

  (** ** column pointers *)
  Definition ptr_row (off k : nat) (a : aptr) : row :=
    if 0 <? k then mkrow k (JArr off) a else mkrow 0 JNull ANull.

  Lemma setColumnPointers_nth sizes off i k :
    nth_error sizes i = Some k ->
    nth_error (setColumnPointers off (map row0 sizes)) i
    = Some (ptr_row (off + list_sum (firstn i sizes)) k ANull).
  Proof.
    revert off i. induction sizes as [|x t IH]; intros off [|i] H; simpl in *; try discriminate.
    - inversion H; subst. rewrite Nat.add_0_r. reflexivity.
    - rewrite (IH (off + x) i H). f_equal. f_equal. lia.
  Qed.

  Lemma setColumnPointers_length off (rs : list row) : length (setColumnPointers off rs) = length rs.
  Proof. revert off; induction rs; intros; simpl; auto. Qed.

  Lemma total_size_scp off sizes : total_size (setColumnPointers off (map row0 sizes)) = list_sum sizes.
  Proof.
    revert off. induction sizes as [|k t IH]; intros; simpl; auto. rewrite IH.
    destruct (Nat.ltb_spec 0 k); simpl; lia.
  Qed.

  Definition cslots (m : nat) (cs : list (list nat * nat)) : list nat := concat (map (slot m) cs).

  Lemma cslots_length m cs : Forall (slot_ok m) cs -> length (cslots m cs) = list_sum (map snd cs).
  Proof.
    unfold cslots. induction 1 as [|p t Hp HF IH]; simpl; auto.
    rewrite app_length, slot_length by auto. lia.
  Qed.

  Lemma Forall_firstn {A} (P : A -> Prop) n l : Forall P l -> Forall P (firstn n l).
  Proof. intros H. revert n. induction H; intros [|n]; simpl; constructor; auto. Qed.
  Lemma Forall_skipn {A} (P : A -> Prop) n l : Forall P l -> Forall P (skipn n l).
  Proof. intros H. revert n. induction H; intros [|n]; simpl; auto. Qed.

  (** the state between endrowsizes and endindices *)
  Record phase2 (s : st) (n m nnz : nat) (cs : list (list nat * nat)) : Prop := {
    p2_mode : mmode (snd s) = Random;
    p2_stage : mstage (snd s) = RowSizesBuilt;
    p2_n : mn (snd s) = n;
    p2_m : mm (snd s) = m;
    p2_nnz : mnnz (snd s) = nnz;
    p2_asize : masize (snd s) = nnz;
    p2_adata : madata (snd s) = None;
    p2_len : length cs = n;
    p2_rows : mrows (snd s) = setColumnPointers 0 (map row0 (map snd cs));
    p2_slots : Forall (slot_ok m) cs;
    p2_total : list_sum (map snd cs) <= nnz;
    p2_j0 : nnz = 0 -> mjid (snd s) = None;
    p2_j : 0 < nnz -> exists tail, jarr (fst s) (snd s) = Some (cslots m cs ++ tail)
                                   /\ length (cslots m cs ++ tail) = nnz
  }.

  Lemma jarr_set_rows h (M : mat) r : jarr h (set_rows M r) = jarr h M.
  Proof. reflexivity. Qed.
  Lemma jarr_set_stage h (M : mat) r : jarr h (set_stage M r) = jarr h M.
  Proof. reflexivity. Qed.

  Lemma jarr_set_jarr h (M : mat) J J' : jarr h M = Some J' -> jarr (set_jarr h M J) M = Some J.
  Proof.
    unfold jarr, set_jarr. destruct (mjid M); [|discriminate]. intros H.
    rewrite nth_error_upd. apply nth_error_lt in H. rewrite Nat.eqb_refl.
    destruct (Nat.ltb_spec n (length h)); [reflexivity|lia].
  Qed.

  Lemma map_slot_empty m sizes : map (slot m) (map (fun k => (nil, k)) sizes) = map (repeat m) sizes.
  Proof. rewrite map_map. apply map_ext. intros k. unfold slot. simpl. rewrite Nat.sub_0_r. reflexivity. Qed.

  Lemma concat_repeat_m (m : nat) sizes : concat (map (repeat m) sizes) = repeat m (list_sum sizes).
  Proof. induction sizes; simpl; auto. rewrite repeat_app. congruence. Qed.

  Lemma slot_ok_empty m k : slot_ok m (nil, k).
  Proof. repeat split; simpl; try constructor; lia. Qed.

  Definition total_ok (nnz total : nat) : Prop := nnz = 0 \/ total <= nnz.
  (** the number of slots actually reserved *)
  Definition reserved (nnz total : nat) : nat := if nnz =? 0 then total else nnz.

  Lemma splice0_all (x : nat) (J : list nat) n : length J = n -> splice 0 (repeat x n) J = repeat x n.
  Proof. intros H. unfold splice. simpl. rewrite repeat_length, skipn_all2 by lia. apply app_nil_r. Qed.

  Lemma endrowsizes_ok s0 s n m nnz sizes :
    fresh s0 Random n m nnz -> sizing s s0 sizes -> length sizes = n ->
    total_ok nnz (list_sum sizes) ->
    exists s', endrowsizes dv s = ROk s' tt /\
               phase2 s' n m (reserved nnz (list_sum sizes)) (map (fun k => (nil, k)) sizes).
  Proof.
    intros F [H1 H2] HL HT. destruct s as [h M]. simpl in H1, H2. subst h M.
    destruct F as [Fm Fs Fn Fmm Fz Fa Fd Fr Fj].
    destruct s0 as [h M]. simpl in *. unfold endrowsizes. cbn -[Nat.eqb Nat.ltb Nat.leb total_size allocate jarr set_jarr splice repeat setColumnPointers].
    rewrite Fm, Fs, total_size_map0, Fz.
    assert (Hsnd : map snd (map (fun k : nat => (@nil nat, k)) sizes) = sizes).
    { rewrite map_map. simpl. apply map_id. }
    assert (HSO : Forall (slot_ok m) (map (fun k : nat => (@nil nat, k)) sizes)).
    { apply Forall_forall. intros p Hp. apply in_map_iff in Hp. destruct Hp as (k & <- & _). apply slot_ok_empty. }
    destruct (Nat.eqb_spec nnz 0) as [E|E].
    - (* unknown nnz: allocate now *)
      subst nnz. rewrite E in *. unfold reserved. simpl Nat.eqb. cbv iota.
      unfold allocate. cbn -[Nat.eqb Nat.ltb Nat.leb setColumnPointers repeat jarr set_jarr splice].
      rewrite (proj1 Fj eq_refl).
      destruct (Nat.ltb_spec 0 (list_sum sizes)) as [Hz|Hz]; cbn -[Nat.eqb Nat.leb setColumnPointers repeat jarr set_jarr splice].
      + destruct (Nat.eqb_spec (list_sum sizes) 0); [lia|].
        unfold jarr at 1. cbn [mjid set_rows set_stage set_jid set_sizes].
        rewrite nth_error_snoc, repeat_length, Nat.leb_refl.
        eexists. split; [reflexivity|].
        constructor; cbn -[setColumnPointers repeat splice jarr set_jarr]; auto.
        * rewrite map_length; auto.
        * rewrite Hsnd; reflexivity.
        * rewrite Hsnd; auto.
        * intros; lia.
        * intros _. exists nil. rewrite app_nil_r. rewrite Fmm.
          rewrite splice0_all by apply repeat_length.
          unfold cslots. rewrite map_slot_empty, concat_repeat_m. rewrite repeat_length. split; auto.
          unfold jarr. cbn -[repeat]. rewrite nth_error_upd, Nat.eqb_refl, app_length. simpl length.
          destruct (Nat.ltb_spec (length h) (length h + 1)); [reflexivity|lia].
      + replace (list_sum sizes) with 0 by lia. rewrite Nat.eqb_refl.
        eexists. split; [reflexivity|].
        constructor; cbn -[setColumnPointers repeat splice jarr set_jarr]; auto.
        * rewrite map_length; auto.
        * rewrite Hsnd; reflexivity.
        * rewrite Hsnd; lia.
        * intros; lia.
    - (* preallocated *)
      destruct HT as [HT|HT]; [lia|].
      destruct (Nat.ltb_spec nnz (list_sum sizes)); [lia|].
      destruct (proj2 Fj ltac:(lia)) as (J & HJ & HJL).
      cbn -[Nat.eqb Nat.leb setColumnPointers repeat jarr set_jarr splice]. rewrite Fz.
      destruct (Nat.eqb_spec nnz 0); [lia|].
      rewrite !jarr_set_rows, HJ.
      destruct (Nat.leb_spec nnz (length J)); [|lia].
      unfold reserved. destruct (Nat.eqb_spec nnz 0); [lia|].
      eexists. split; [reflexivity|].
      constructor; cbn -[setColumnPointers repeat splice jarr set_jarr]; auto.
      * rewrite map_length; auto.
      * rewrite Hsnd; reflexivity.
      * rewrite Hsnd; auto.
      * intros; lia.
      * intros _. exists (repeat m (nnz - list_sum sizes)).
        rewrite Fmm, splice0_all by auto.
        unfold cslots. rewrite map_slot_empty, concat_repeat_m, <- repeat_app, repeat_length.
        replace (list_sum sizes + (nnz - list_sum sizes)) with nnz by lia. split; auto.
        change (jarr (set_jarr h M (repeat m nnz)) M = Some (repeat m nnz)).
        eapply jarr_set_jarr; eauto.
  Qed.

  Lemma endrowsizes_small s0 s n m nnz sizes :
    fresh s0 Random n m nnz -> sizing s s0 sizes -> length sizes = n ->
    ~ total_ok nnz (list_sum sizes) -> endrowsizes dv s = RThrow s EBCRS.
  Proof.
    intros F [H1 H2] HL HT. destruct s as [h M]. simpl in H1, H2. subst h M.
    destruct F as [Fm Fs Fn Fmm Fz Fa Fd Fr Fj].
    destruct s0 as [h M]. simpl in *. unfold endrowsizes. cbn -[Nat.eqb Nat.ltb Nat.leb total_size allocate jarr set_jarr splice repeat setColumnPointers].
    rewrite Fm, Fs, total_size_map0, Fz. unfold total_ok in HT.
    destruct (Nat.eqb_spec nnz 0) as [E|E]; [lia|].
    destruct (Nat.ltb_spec nnz (list_sum sizes)); [|lia]. reflexivity.
  Qed.

  (** ** addindex *)
  Lemma p2_row s n m nnz cs i p :
    phase2 s n m nnz cs -> nth_error cs i = Some p ->
    nth_error (mrows (snd s)) i = Some (ptr_row (length (cslots m (firstn i cs))) (snd p) ANull).
  Proof.
    intros P Hp. rewrite (p2_rows _ _ _ _ _ P).
    rewrite (setColumnPointers_nth (map snd cs) 0 i (snd p)) by (rewrite nth_error_map, Hp; reflexivity).
    f_equal. f_equal. rewrite cslots_length by (apply Forall_firstn, (p2_slots _ _ _ _ _ P)).
    rewrite firstn_map. reflexivity.
  Qed.

  Lemma cslots_split m cs i p :
    nth_error cs i = Some p ->
    cslots m cs = cslots m (firstn i cs) ++ slot m p ++ cslots m (skipn (S i) cs).
  Proof.
    intros H. unfold cslots. rewrite (concat_split _ i (slot m p)).
    - rewrite firstn_map, skipn_map. reflexivity.
    - rewrite nth_error_map, H. reflexivity.
  Qed.

  Lemma cslots_upd m cs i p :
    i < length cs ->
    cslots m (upd cs i p) = cslots m (firstn i cs) ++ slot m p ++ cslots m (skipn (S i) cs).
  Proof.
    intros H. unfold cslots. rewrite upd_map, concat_upd_split by (rewrite map_length; auto).
    rewrite firstn_map, skipn_map. reflexivity.
  Qed.

  Lemma slot_fits m cs i p nnz :
    Forall (slot_ok m) cs -> nth_error cs i = Some p -> list_sum (map snd cs) <= nnz ->
    length (cslots m (firstn i cs)) + snd p <= nnz.
  Proof.
    intros HF Hp HT.
    assert (Hps : slot_ok m p) by (rewrite Forall_forall in HF; apply HF; eapply nth_error_In; eauto).
    rewrite <- (cslots_length m) in HT by auto.
    rewrite (cslots_split m cs i p Hp) in HT. rewrite !app_length, slot_length in HT by auto. lia.
  Qed.

  Lemma p2_row_idx s n m nnz cs i p :
    phase2 s n m nnz cs -> nth_error cs i = Some p ->
    row_idx (fst s) (snd s) (ptr_row (length (cslots m (firstn i cs))) (snd p) (@ANull V)) = Some (slot m p).
  Proof.
    intros P Hp. pose proof (p2_slots _ _ _ _ _ P) as HF.
    assert (Hps : slot_ok m p) by (rewrite Forall_forall in HF; apply HF; eapply nth_error_In; eauto).
    pose proof (slot_length m p Hps) as HL.
    unfold row_idx, ptr_row. destruct (Nat.ltb_spec 0 (snd p)) as [H0|H0]; simpl.
    - destruct (Nat.eqb_spec (snd p) 0); [lia|].
      pose proof (slot_fits m cs i p nnz HF Hp (p2_total _ _ _ _ _ P)) as Hfit.
      destruct (p2_j _ _ _ _ _ P) as (tail & HJ & HJL); [lia|].
      rewrite HJ. rewrite HJL. destruct (Nat.leb_spec (length (cslots m (firstn i cs)) + snd p) nnz); [|lia].
      rewrite (cslots_split m cs i p Hp). rewrite <- !app_assoc. rewrite <- HL. rewrite slice_app_mid. reflexivity.
    - destruct (slot m p); [reflexivity|simpl in HL; lia].
  Qed.

  Lemma map_snd_upd (cs : list (list nat * nat)) i p q :
    nth_error cs i = Some p -> snd q = snd p -> map snd (upd cs i q) = map snd cs.
  Proof. intros. eapply upd_same_map; eauto. Qed.

  Lemma Forall_upd {A} (P : A -> Prop) l i x : Forall P l -> P x -> Forall P (upd l i x).
  Proof. intros H Hx. revert i. induction H; intros [|i]; simpl; constructor; auto. Qed.

  Lemma addindex_ok s n m nnz cs i j p :
    phase2 s n m nnz cs -> nth_error cs i = Some p -> j < m ->
    (In j (fst p) \/ length (fst p) < snd p) ->
    exists s', addindex s i j = ROk s' tt /\
               phase2 s' n m nnz (upd cs i (set_insert j (fst p), snd p)).
  Proof.
    intros P Hp Hj Hsp. pose proof (p2_slots _ _ _ _ _ P) as HF.
    assert (Hps : slot_ok m p) by (rewrite Forall_forall in HF; apply HF; eapply nth_error_In; eauto).
    pose proof (p2_row _ _ _ _ _ _ _ P Hp) as Hrow.
    pose proof (p2_row_idx _ _ _ _ _ _ _ P Hp) as Hidx.
    destruct (add_slot_ok m j p Hps Hj Hsp) as [Hadd Hok].
    pose proof (slot_fits m cs i p nnz HF Hp (p2_total _ _ _ _ _ P)) as Hfit.
    pose proof (nth_error_lt _ _ _ Hp) as Hi.
    destruct s as [h M]. destruct P as [Pm Ps Pn Pmm Pz Pa Pd PL Pr PF PT PJ0 PJ]. simpl in *.
    rewrite Pm, Ps, Pmm. destruct (Nat.leb_spec m j); [lia|]. rewrite Hrow, Hidx, Hadd.
    unfold ptr_row. destruct (Nat.ltb_spec 0 (snd p)) as [H0|H0]; cbn [rj].
    - destruct (PJ ltac:(lia)) as (tail & HJ & HJL). rewrite HJ.
      eexists. split; [reflexivity|].
      assert (HS : splice (length (cslots m (firstn i cs))) (slot m (set_insert j (fst p), snd p)) (cslots m cs ++ tail)
                   = cslots m (upd cs i (set_insert j (fst p), snd p)) ++ tail).
      { rewrite (cslots_split m cs i p Hp), <- !app_assoc.
        rewrite splice_app_mid by (rewrite !slot_length by auto; reflexivity).
        rewrite cslots_upd by auto. rewrite <- !app_assoc. reflexivity. }
      rewrite HS.
      assert (Hlen : length (cslots m (upd cs i (set_insert j (fst p), snd p)) ++ tail) = nnz).
      { rewrite <- HS. rewrite splice_length; auto. rewrite slot_length by auto. simpl. lia. }
      constructor; cbn [fst snd]; auto.
      + rewrite upd_length; auto.
      + erewrite map_snd_upd by eauto. exact Pr.
      + apply Forall_upd; auto.
      + erewrite map_snd_upd by eauto. auto.
      + intros _. exists tail. split; auto. eapply jarr_set_jarr; eauto.
    - (* empty row: nothing can be added *)
      destruct Hsp as [Hin|Hlt]; [|lia]. destruct Hps as (_ & _ & Hle).
      destruct (fst p); [destruct Hin|simpl in Hle; lia].
  Qed.

  Lemma addindex_full s n m nnz cs i j p :
    phase2 s n m nnz cs -> nth_error cs i = Some p -> j < m ->
    ~ In j (fst p) -> snd p <= length (fst p) -> addindex s i j = RThrow s EBCRS.
  Proof.
    intros P Hp Hj Hn Hk. pose proof (p2_slots _ _ _ _ _ P) as HF.
    assert (Hps : slot_ok m p) by (rewrite Forall_forall in HF; apply HF; eapply nth_error_In; eauto).
    pose proof (p2_row _ _ _ _ _ _ _ P Hp) as Hrow.
    pose proof (p2_row_idx _ _ _ _ _ _ _ P Hp) as Hidx.
    pose proof (add_slot_full m j p Hps Hj Hn Hk) as Hadd.
    destruct s as [h M]. destruct P as [Pm Ps Pn Pmm Pz Pa Pd PL Pr PF PT PJ0 PJ]. simpl in *.
    rewrite Pm, Ps, Pmm. destruct (Nat.leb_spec m j); [lia|]. rewrite Hrow, Hidx, Hadd. reflexivity.
  Qed.

  Lemma addindex_col s n m nnz cs i j :
    phase2 s n m nnz cs -> m <= j -> addindex s i j = RThrow s EBCRS.
  Proof.
    intros P Hj. destruct s as [h M]. destruct P as [Pm Ps Pn Pmm Pz Pa Pd PL Pr PF PT PJ0 PJ]. simpl in *.
    rewrite Pm, Ps, Pmm. destruct (Nat.leb_spec m j); [reflexivity|lia].
  Qed.

  Lemma addindex_row_oob s n m nnz cs i j :
    phase2 s n m nnz cs -> n <= i -> j < m -> addindex s i j = RUB.
  Proof.
    intros P Hi Hj. destruct s as [h M]. destruct P as [Pm Ps Pn Pmm Pz Pa Pd PL Pr PF PT PJ0 PJ]. simpl in *.
    rewrite Pm, Ps, Pmm. destruct (Nat.leb_spec m j); [lia|].
    replace (nth_error (mrows M) i) with (@None row); auto.
    symmetry. apply nth_error_None. rewrite Pr, setColumnPointers_length, !map_length. lia.
  Qed.

  Definition add_step (s : st) (ij : nat * nat) : res st unit := addindex s (fst ij) (snd ij).

  (** columns added to row [i], in order of the calls *)
  Definition cols_of (adds : list (nat * nat)) (i : nat) : list nat :=
    map snd (filter (fun ij => fst ij =? i) adds).

  Lemma cols_of_In adds i j : In j (cols_of adds i) <-> In (i, j) adds.
  Proof.
    unfold cols_of. rewrite in_map_iff. split.
    - intros ([a b] & E & H). simpl in E. subst b. apply filter_In in H. destruct H as [H1 H2]. simpl in H2.
      apply Nat.eqb_eq in H2. subst. auto.
    - intros H. exists (i, j). split; auto. apply filter_In. split; auto. simpl. apply Nat.eqb_refl.
  Qed.

  (** final content of the rows after the calls *)
  Definition after (cs : list (list nat * nat)) (adds : list (nat * nat)) : list (list nat * nat) :=
    map (fun ip => (inserts (cols_of adds (fst ip)) (fst (snd ip)), snd (snd ip))) (combine (seq 0 (length cs)) cs).

  Lemma after_nth cs adds i p :
    nth_error cs i = Some p -> nth_error (after cs adds) i = Some (inserts (cols_of adds i) (fst p), snd p).
  Proof.
    intros H. unfold after. rewrite nth_error_map.
    assert (Hc : forall k (l : list (list nat * nat)) i p, nth_error l i = Some p -> nth_error (combine (seq k (length l)) l) i = Some (k + i, p)).
    { clear. intros k l. revert k. induction l as [|x t IH]; intros k [|i] p H; simpl in *; try discriminate.
      - rewrite Nat.add_0_r. congruence.
      - rewrite (IH (S k) i p H). f_equal. f_equal. lia. }
    rewrite (Hc 0 cs i p H). reflexivity.
  Qed.

  Lemma after_length cs adds : length (after cs adds) = length cs.
  Proof. unfold after. rewrite map_length, combine_length, seq_length. lia. Qed.

  Lemma after_nil cs : after cs nil = cs.
  Proof.
    apply list_eq_nth; [apply after_length|]. intros i Hi. rewrite after_length in Hi.
    destruct (nth_error_ex cs i Hi) as [p Hp]. rewrite (after_nth _ _ _ _ Hp), Hp. destruct p; reflexivity.
  Qed.

  Lemma after_cons cs i j p adds :
    nth_error cs i = Some p ->
    after (upd cs i (set_insert j (fst p), snd p)) adds = after cs ((i, j) :: adds).
  Proof.
    intros Hp. apply list_eq_nth; [rewrite !after_length, upd_length; auto|].
    intros k Hk. rewrite after_length, upd_length in Hk.
    destruct (nth_error_ex cs k Hk) as [q Hq].
    rewrite (after_nth cs _ k q Hq).
    destruct (Nat.eq_dec i k) as [->|Hne].
    - rewrite (after_nth _ _ k (set_insert j (fst p), snd p)).
      2:{ rewrite nth_error_upd, Nat.eqb_refl. destruct (Nat.ltb_spec k (length cs)); [reflexivity|lia]. }
      rewrite Hp in Hq. inversion Hq; subst q. unfold cols_of. simpl filter. rewrite Nat.eqb_refl. reflexivity.
    - rewrite (after_nth _ _ k q).
      2:{ rewrite nth_error_upd. destruct (Nat.eqb_spec i k); [lia|auto]. }
      unfold cols_of. simpl filter. destruct (Nat.eqb_spec i k); [lia|reflexivity].
  Qed.

  (** the exact condition for all calls to succeed *)
  Definition adds_ok (m : nat) (cs : list (list nat * nat)) (adds : list (nat * nat)) : Prop :=
    Forall (fun ij => snd ij < m) adds /\
    forall i p, nth_error (after cs adds) i = Some p -> length (fst p) <= snd p.

  Lemma adds_run adds : forall s n m nnz cs,
    phase2 s n m nnz cs -> Forall (fun ij => fst ij < n) adds ->
    (adds_ok m cs adds -> exists s', rrun add_step s adds = ROk s' tt /\ phase2 s' n m nnz (after cs adds)) /\
    (~ adds_ok m cs adds -> exists s', rrun add_step s adds = RThrow s' EBCRS).
  Proof.
    induction adds as [|[i j] t IH]; intros s n m nnz cs P HF; simpl rrun.
    - split.
      + intros _. exists s. rewrite after_nil. auto.
      + intros H. exfalso. apply H. split; auto. intros i p Hp. rewrite after_nil in Hp.
        pose proof (p2_slots _ _ _ _ _ P) as HS. rewrite Forall_forall in HS.
        apply HS. eapply nth_error_In; eauto.
    - inversion HF as [|? ? Hi Ht]; subst. simpl in Hi.
      assert (Hi2 : i < length cs) by (rewrite (p2_len _ _ _ _ _ P); auto).
      destruct (nth_error_ex cs i Hi2) as [p Hp].
      pose proof (p2_slots _ _ _ _ _ P) as HS.
      assert (Hps : slot_ok m p) by (rewrite Forall_forall in HS; apply HS; eapply nth_error_In; eauto).
      unfold add_step at 1 3. simpl fst. simpl snd.
      destruct (Nat.lt_ge_cases j m) as [Hj|Hj].
      2:{ rewrite (addindex_col _ _ _ _ _ i j P Hj). split; [|eauto].
          intros [H _]. inversion H; subst. simpl in *. lia. }
      assert (Hdec : In j (fst p) \/ length (fst p) < snd p \/ (~ In j (fst p) /\ snd p <= length (fst p))).
      { destruct (in_dec Nat.eq_dec j (fst p)); auto. destruct (Nat.lt_ge_cases (length (fst p)) (snd p)); auto. }
      assert (Hafter : forall q, nth_error (after cs ((i, j) :: t)) i = Some q ->
                 q = (inserts (cols_of t i) (set_insert j (fst p)), snd p)).
      { intros q Hq. rewrite (after_nth cs _ i p Hp) in Hq. inversion Hq; subst.
        unfold cols_of. simpl filter. rewrite Nat.eqb_refl. reflexivity. }
      destruct Hdec as [Hd|[Hd|[Hd1 Hd2]]].
      + destruct (addindex_ok _ _ _ _ _ i j p P Hp Hj (or_introl Hd)) as (s1 & E & P1).
        rewrite E. destruct (IH _ _ _ _ _ P1 Ht) as [IH1 IH2].
        rewrite after_cons in IH1 by auto.
        assert (Heq : adds_ok m (upd cs i (set_insert j (fst p), snd p)) t <-> adds_ok m cs ((i, j) :: t)).
        { unfold adds_ok. rewrite after_cons by auto. split; intros [A B]; split; auto. inversion A; auto. }
        split; intros H; [apply IH1|apply IH2]; tauto.
      + destruct (addindex_ok _ _ _ _ _ i j p P Hp Hj (or_intror Hd)) as (s1 & E & P1).
        rewrite E. destruct (IH _ _ _ _ _ P1 Ht) as [IH1 IH2].
        rewrite after_cons in IH1 by auto.
        assert (Heq : adds_ok m (upd cs i (set_insert j (fst p), snd p)) t <-> adds_ok m cs ((i, j) :: t)).
        { unfold adds_ok. rewrite after_cons by auto. split; intros [A B]; split; auto. inversion A; auto. }
        split; intros H; [apply IH1|apply IH2]; tauto.
      + rewrite (addindex_full _ _ _ _ _ i j p P Hp Hj Hd1 Hd2). split; [|eauto].
        intros [_ H]. exfalso.
        destruct (nth_error_ex (after cs ((i, j) :: t)) i ltac:(rewrite after_length; auto)) as [q Hq].
        pose proof (H i q Hq) as Hle. rewrite (Hafter q Hq) in Hle. simpl in Hle.
        assert (HSI : ssorted (set_insert j (fst p))) by (apply set_insert_ss; apply Hps).
        pose proof (inserts_length_mono (cols_of t i) _ HSI).
        rewrite set_insert_length in H0; [lia|apply Hps|auto].
  Qed.
End RandomMode.
