(** * MultiTypeBlockMatrix and MultiTypeBlockVector (C41): dune/istl/multitypeblockmatrix.hh, multitypeblockvector.hh *)
From Coq Require Import Arith List Lia Bool ZArith Sorted.
From Verif Require Import Ring Sums RingInst Outcome Sparse MatVec Dense.
Import ListNotations.
Open Scope nat_scope.

(** ** Specification: flat indices *)
(** the block and the position in it of flat index r, for blocks of sizes hs *)
Fixpoint locate (hs : list nat) (r : nat) : nat * nat :=
  match hs with
  | nil => (0, r)
  | h :: t => if r <? h then (0, r) else let '(i, r') := locate t (r - h) in (S i, r')
  end.
(** the flat index at which block i starts *)
Definition start (hs : list nat) (i : nat) : nat := list_sum (firstn i hs).
Lemma locate_at hs : forall i r, i < length hs -> r < nth i hs 0 -> locate hs (start hs i + r) = (i, r).
Proof.
  unfold start. induction hs as [|h t IH]; intros [|i] r H Hr; cbn in H; try lia; cbn [locate firstn nth] in *.
  - unfold list_sum. cbn [fold_right]. rewrite Nat.add_0_l. destruct (Nat.ltb_spec r h); auto; lia.
  - unfold list_sum. cbn [fold_right]. destruct (Nat.ltb_spec (h + fold_right Nat.add 0 (firstn i t) + r) h); [lia|].
    replace (h + fold_right Nat.add 0 (firstn i t) + r - h) with (list_sum (firstn i t) + r) by (unfold list_sum; lia). rewrite IH by lia. auto.
Qed.
Lemma locate_spec hs : forall r, r < list_sum hs -> exists i r', locate hs r = (i, r') /\ i < length hs /\ r' < nth i hs 0 /\ r = start hs i + r'.
Proof.
  unfold start. induction hs as [|h t IH]; intros r H; cbn [locate]; [cbn in H; lia|]. unfold list_sum in H. cbn [fold_right] in H. destruct (Nat.ltb_spec r h).
  - exists 0, r. cbn. repeat split; auto; lia.
  - destruct (IH (r - h)) as (i & r' & E & L1 & L2 & L3); [unfold list_sum; lia|]. exists (S i), r'. rewrite E. cbn [firstn nth length]. repeat split; auto; [lia|]. unfold list_sum in *. cbn [fold_right]. lia.
Qed.

  Lemma sum_flat {R : ring} (ws : list nat) (f : nat -> R) : sum (list_sum ws) f = sum (length ws) (fun j => sum (nth j ws 0) (fun c => f (start ws j + c)%nat)).
  Proof.
      revert f. induction ws as [|w t IH]; intros f; [reflexivity|]. change (list_sum (w :: t)) with (w + list_sum t)%nat. rewrite sum_split, IH. cbn [length]. rewrite sum_S_l. f_equal. apply sum_ext. intros j _. apply sum_ext. intros c _. f_equal. unfold start. cbn [firstn]. unfold list_sum. cbn [fold_right]. lia.
  Qed.
Section MT.
  Context {R : ring}.
  Local Open Scope ring_scope_istl.
  Variables (tr hj : R -> R).
  (** blocks are BCRSMatrices and BlockVectors (the tuple may hold any type with the same interface) *)
  Notation mtm := (list (list (smat R))).
  Notation mtvec := (list (vec R)).
  Definition blk (A : mtm) (i j : nat) : smat R := nth j (nth i A nil) nil.
  Definition vblk (x : mtvec) (i : nat) : vec R := nth i x nil.
  (** entry (r,c) of the assembled matrix with row block sizes hs and column block sizes ws *)
  Definition flat_entry (hs ws : list nat) (A : mtm) (r c : nat) : R := den (blk A (fst (locate hs r)) (fst (locate ws c))) (snd (locate hs r)) (snd (locate ws c)).
  Definition mt_wf (hs ws : list nat) (A : mtm) : Prop := forall i j, i < length hs -> j < length ws -> mat_wf (nth i hs 0) (nth j ws 0) (blk A i j).
  Definition sizes (x : mtvec) : list nat := map (@length R) x.

  (** ** Model *)
  (** forEach(integralRange(size(y)), i: forEach(integralRange(size(x)), j: op(i, j)(x[j], y[i]))) (multitypeblockmatrix.hh:211-222 and all others) *)
  Definition mt_loop (op : nat -> nat -> vec R -> vec R -> vec R) (x y : mtvec) : mtvec :=
    for_ (length y) (fun i => for_ (length x) (fun j y => upd y i (op i j (vblk x j) (vblk y i)))) y.
  (** umv :211-222, mmv :226-237, usmv :241-252 *)
  Definition mt_umv (A : mtm) := mt_loop (fun i j => bcrs_umv (blk A i j)).
  Definition mt_mmv (A : mtm) := mt_loop (fun i j => bcrs_mmv (blk A i j)).
  Definition mt_usmv (alpha : R) (A : mtm) := mt_loop (fun i j => bcrs_usmv alpha (blk A i j)).
  (** operator=(0) of the vector, multitypeblockvector.hh:158-163 *)
  Definition mt_fill (v : R) (y : mtvec) : mtvec := map (map (fun _ => v)) y.
  (** mv :201-207 *)
  Definition mt_mv (A : mtm) (x y : mtvec) : mtvec := mt_umv A x (mt_fill r0 y).
  (** umtv :266-277, mtv :256-262, mmtv :281-292, usmtv :296-307, umhv :311-322, mmhv :326-337, usmhv :341-352: [( *this)[j][i].umtv(x[j], y[i])] *)
  Definition mt_umtv (A : mtm) := mt_loop (fun i j => bcrs_umtv tr (blk A j i)).
  Definition mt_mtv (A : mtm) (x y : mtvec) : mtvec := mt_umtv A x (mt_fill r0 y).
  Definition mt_mmtv (A : mtm) := mt_loop (fun i j => bcrs_mmtv tr (blk A j i)).
  Definition mt_usmtv (alpha : R) (A : mtm) := mt_loop (fun i j => bcrs_usmtv tr alpha (blk A j i)).
  Definition mt_umhv (A : mtm) := mt_loop (fun i j => bcrs_umhv hj (blk A j i)).
  Definition mt_mmhv (A : mtm) := mt_loop (fun i j => bcrs_mmhv hj (blk A j i)).
  Definition mt_usmhv (alpha : R) (A : mtm) := mt_loop (fun i j => bcrs_usmhv hj alpha (blk A j i)).

  (** ** Proofs *)
  Lemma fold_seq_S {S} (f : S -> nat -> S) n s : fold_left f (seq 0 (Datatypes.S n)) s = f (fold_left f (seq 0 n) s) n.
  Proof. rewrite seq_S, fold_left_app. reflexivity. Qed.
  Lemma vget_concat (x : mtvec) : forall j c, j < length x -> c < length (vblk x j) -> vget (concat x) (start (sizes x) j + c) = vget (vblk x j) c.
  Proof.
    unfold start, sizes, vblk, vget. induction x as [|a t IH]; intros [|j] c Hj Hc; cbn in Hj; try lia; cbn [map firstn concat nth] in *.
    - cbn. apply app_nth1. auto.
    - unfold list_sum. cbn [fold_right]. rewrite app_nth2 by lia. rewrite <- IH by (auto; lia). f_equal. unfold list_sum. lia.
  Qed.
  Lemma length_concat (x : mtvec) : length (concat x) = list_sum (sizes x).
  Proof. induction x as [|a t IH]; cbn; auto. rewrite app_length, IH. auto. Qed.
  Lemma nth_sizes (x : mtvec) i : nth i (sizes x) 0 = length (vblk x i).
  Proof. unfold sizes, vblk. change 0 with (length (@nil R)). apply map_nth. Qed.

  Lemma loop_ok op g (x y : mtvec) : (forall i j yi, i < length y -> j < length x -> length yi = length (vblk y i) -> is_vec (op i j (vblk x j) yi) (length yi) (fun r => vget yi r + g i j r)) ->
    let y' := mt_loop op x y in sizes y' = sizes y /\ forall i r, i < length y -> r < length (vblk y i) -> vget (vblk y' i) r = vget (vblk y i) r + sum (length x) (fun j => g i j r).
  Proof.
    intros OP. unfold mt_loop, for_.
    set (body := fun (s : mtvec) (i : nat) => fold_left (fun (y : mtvec) j => upd y i (op i j (vblk x j) (vblk y i))) (seq 0 (length x)) s).
    assert (G : forall n, n <= length y -> let y' := fold_left body (seq 0 n) y in length y' = length y /\ forall i, i < length y ->
      length (vblk y' i) = length (vblk y i) /\ forall r, r < length (vblk y i) -> vget (vblk y' i) r = if i <? n then vget (vblk y i) r + sum (length x) (fun j => g i j r) else vget (vblk y i) r).
    { induction n as [|n IH]; intros Hn y'.
      - split; auto.
      - destruct IH as [L V]; [lia|]. subst y'. rewrite fold_seq_S. set (yn := fold_left body (seq 0 n) y) in *.
        assert (Hn' : n < length yn) by lia.
        assert (INN : forall m, m <= length x -> exists yi, fold_left (fun (y1 : mtvec) j => upd y1 n (op n j (vblk x j) (vblk y1 n))) (seq 0 m) yn = upd yn n yi /\ is_vec yi (length (vblk yn n)) (fun r => vget (vblk yn n) r + sum m (fun j => g n j r))).
        { induction m as [|m IHm]; intros Hm.
          - exists (vblk yn n). split; [cbn; symmetry; apply upd_nth_same|]. split; auto. intros r _. cbn. now rewrite radd_0_r.
          - destruct IHm as (yi & E & L1 & V1); [lia|]. rewrite fold_seq_S, E. exists (op n m (vblk x m) yi).
            assert (VB : vblk (upd yn n yi) n = yi) by (unfold vblk; apply nth_upd_eq; auto). rewrite VB.
            assert (UU : forall A (l : list A) q a b, upd (upd l q a) q b = upd l q b) by (clear; induction l as [|z t IH]; intros [|q] a b; cbn; auto; now rewrite IH).
            split; [apply UU|]. destruct (OP n m yi) as [L2 V2]; [lia|lia|rewrite L1; apply V; lia|]. split; [congruence|]. intros r Hr. rewrite V2 by lia. rewrite V1 by auto. cbn [sum]. ncring. }
        destruct (INN (length x) (le_n _)) as (yi & E & L1 & V1). assert (EB : body yn n = upd yn n yi) by exact E. rewrite EB. split; [rewrite upd_length; auto|]. intros i Hi. destruct (V i Hi) as [VL VV]. assert (VU : forall i, vblk (upd yn n yi) i = if n =? i then (if i <? length yn then yi else nil) else vblk yn i) by (intros i0; apply nth_upd). rewrite !VU. destruct (Nat.eqb_spec n i) as [Q|NE].
        + subst i. destruct (Nat.ltb_spec n (length yn)); [|lia]. split; [congruence|]. intros r Hr. 
 rewrite V1 by lia. rewrite VV by auto. destruct (Nat.ltb_spec n n); [lia|]. destruct (Nat.ltb_spec n (S n)); [auto|lia].
        + split; auto. intros r Hr. rewrite VV by auto. destruct (Nat.ltb_spec i n), (Nat.ltb_spec i (S n)); auto; lia. }
    destruct (G (length y) (le_n _)) as [L V]. change (fold_left (fun s i => for_ (length x) (fun j y1 => upd y1 i (op i j (vblk x j) (vblk y1 i))) s) (seq 0 (length y)) y) with (fold_left body (seq 0 (length y)) y). split.
    - unfold sizes. apply (nth_ext _ _ 0 0); rewrite !map_length; auto. intros i Hi. rewrite L in Hi. change 0 with (length (@nil R)). rewrite !map_nth. apply V. auto.
    - intros i r Hi Hr. destruct (V i Hi) as [_ VV]. rewrite VV by auto. destruct (Nat.ltb_spec i (length y)); auto. lia.
  Qed.
  (** from blocks to flat vectors *)
  Lemma loop_flat (op : nat -> nat -> vec R -> vec R -> vec R) (x y : mtvec) (e : nat -> nat -> R) (act : R -> R) :
    act r0 = r0 -> (forall a b, act (a + b) = act a + act b) ->
    (forall i j yi, i < length y -> j < length x -> length yi = length (vblk y i) -> is_vec (op i j (vblk x j) yi) (length yi) (fun r => vget yi r + act (sum (length (vblk x j)) (fun c => e (start (sizes y) i + r)%nat (start (sizes x) j + c)%nat * vget (vblk x j) c)))) ->
    is_vec (concat (mt_loop op x y)) (length (concat y)) (fun r => vget (concat y) r + act (sum (length (concat x)) (fun c => e r c * vget (concat x) c))).
  Proof.
    intros A0 AA OP. destruct (loop_ok op _ x y OP) as [SZ V]. set (y' := mt_loop op x y) in *.
    assert (LY : length y' = length y) by (apply (f_equal (@length _)) in SZ; unfold sizes in SZ; rewrite !map_length in SZ; auto).
    split; [rewrite !length_concat, SZ; auto|]. intros r Hr. rewrite length_concat in Hr. destruct (locate_spec _ _ Hr) as (i & r' & _ & Hi & Hr' & ->). unfold sizes in Hi. rewrite map_length in Hi. rewrite nth_sizes in Hr'.
    rewrite (vget_concat y) by auto. rewrite <- SZ at 1. rewrite vget_concat; [|lia|rewrite <- nth_sizes, SZ, nth_sizes; auto]. rewrite V by auto. f_equal.
    rewrite length_concat, sum_flat. assert (LS : length (sizes x) = length x) by apply map_length. rewrite LS.
    assert (AS : forall n f, act (sum n f) = sum n (fun k => act (f k))) by (intros n f; induction n as [|n IH]; cbn [sum]; auto; rewrite AA, IH; auto).
    rewrite AS. apply sum_ext. intros j Hj. f_equal. rewrite nth_sizes. apply sum_ext. intros c Hc. f_equal. symmetry. apply vget_concat; auto.
  Qed.
  Lemma flat_entry_at hs ws A i j r c : i < length hs -> j < length ws -> r < nth i hs 0 -> c < nth j ws 0 -> flat_entry hs ws A (start hs i + r)%nat (start ws j + c)%nat = den (blk A i j) r c.
  Proof. intros. unfold flat_entry. rewrite !locate_at by auto. reflexivity. Qed.

  (** C41 (matrix): the products of a MultiTypeBlockMatrix are those of the assembled matrix with the concatenated vectors *)
  Theorem C41_products (A : mtm) (x y : mtvec) : let hs := sizes y in let ws := sizes x in mt_wf hs ws A ->
    let e := flat_entry hs ws A in let X := concat x in let Y := concat y in
    is_vec (concat (mt_mv A x y)) (length Y) (fun r => sum (length X) (fun c => e r c * vget X c)) /\
    is_vec (concat (mt_umv A x y)) (length Y) (fun r => vget Y r + sum (length X) (fun c => e r c * vget X c)) /\
    is_vec (concat (mt_mmv A x y)) (length Y) (fun r => vget Y r - sum (length X) (fun c => e r c * vget X c)) /\
    forall alpha, is_vec (concat (mt_usmv alpha A x y)) (length Y) (fun r => vget Y r + alpha * sum (length X) (fun c => e r c * vget X c)).
  Proof.
    intros hs ws WF e X Y. unfold hs, ws in WF.
    assert (BW : forall i j, i < length y -> j < length x -> mat_wf (length (vblk y i)) (length (vblk x j)) (blk A i j)).
    { intros i j Hi Hj. rewrite <- !nth_sizes. apply WF; unfold sizes; rewrite map_length; auto. }
    assert (SE : forall i j r, i < length y -> j < length x -> r < length (vblk y i) -> sum (length (vblk x j)) (fun c => e (start (sizes y) i + r)%nat (start (sizes x) j + c)%nat * vget (vblk x j) c) = sum (length (vblk x j)) (fun c => den (blk A i j) r c * vget (vblk x j) c)).
    { intros i j r Hi Hj Hr. apply sum_ext. intros c Hc. unfold e, hs, ws. rewrite flat_entry_at; auto; rewrite ?nth_sizes; auto; unfold sizes; rewrite map_length; auto. }
    assert (UMV : forall y1 : mtvec, sizes y1 = sizes y -> is_vec (concat (mt_umv A x y1)) (length (concat y1)) (fun r => vget (concat y1) r + sum (length X) (fun c => e r c * vget X c))).
    { intros y1 SZ. assert (LL : length y1 = length y) by (apply (f_equal (@length _)) in SZ; unfold sizes in SZ; rewrite !map_length in SZ; auto).
      apply (loop_flat _ x y1 e (fun a => a)); auto. intros i j yi Hi Hj Hl. rewrite LL in Hi. assert (HL : length (vblk y1 i) = length (vblk y i)) by (rewrite <- !nth_sizes, SZ; auto).
      destruct (C09_products _ _ (blk A i j) (vblk x j) yi (BW i j Hi Hj) eq_refl) as (_ & P & _); [congruence|]. destruct P as [P1 P2]. split; [congruence|]. intros r Hr. rewrite P2 by lia. rewrite SZ. rewrite SE by (auto; lia). reflexivity. }
    split; [|split; [|split]].
    - unfold mt_mv. assert (SZ : sizes (mt_fill r0 y) = sizes y) by (unfold sizes, mt_fill; rewrite map_map; apply map_ext; intros a; apply map_length).
      destruct (UMV (mt_fill r0 y) SZ) as [U1 U2]. assert (LF : length (concat (mt_fill r0 y)) = length Y) by (unfold Y; rewrite !length_concat, SZ; auto). split; [congruence|]. intros r Hr. rewrite U2 by congruence.
      replace (vget (concat (mt_fill r0 y)) r) with (@r0 R); [apply radd_0_l|]. unfold mt_fill. rewrite <- concat_map. unfold vget. symmetry. change r0 with ((fun _ : R => @r0 R) r0) at 2. rewrite map_nth. reflexivity.
    - apply UMV. reflexivity.
    - destruct (loop_flat (fun i j => bcrs_mmv (blk A i j)) x y e ropp) as [P1 P2]; [ncring|intros; ncring| |].
      + intros i j yi Hi Hj Hl. destruct (C09_products _ _ (blk A i j) (vblk x j) yi (BW i j Hi Hj) eq_refl) as (_ & _ & P & _); [congruence|]. destruct P as [P1 P2]. split; [congruence|]. intros r Hr. rewrite P2 by lia. rewrite SE by (auto; lia). ncring.
      + split; [exact P1|]. intros r Hr. unfold mt_mmv. rewrite P2 by auto. ncring.
    - intros alpha. apply (loop_flat _ x y e (fun a => alpha * a)); [ncring|intros; ncring|]. intros i j yi Hi Hj Hl.
      destruct (C09_products _ _ (blk A i j) (vblk x j) yi (BW i j Hi Hj) eq_refl) as (_ & _ & _ & P); [congruence|]. destruct (P alpha) as [P1 P2]. split; [congruence|]. intros r Hr. rewrite P2 by lia. rewrite SE by (auto; lia). reflexivity.
  Qed.
  Section Transposed.
    (** f is the transposition or conjugate transposition of an entry, with the corresponding block operations *)
    Variable f : R -> R.
    Hypothesis F0 : f r0 = r0.
    Variables (A : mtm) (x y : mtvec).
    Hypothesis WF : mt_wf (sizes x) (sizes y) A.
    Notation e := (flat_entry (sizes x) (sizes y) A).
    Lemma trans_flat op act : act r0 = r0 -> (forall a b, act (a + b) = act a + act b) ->
      (forall n m (B : smat R) (xx yy : vec R), mat_wf n m B -> length xx = n -> length yy = m -> is_vec (op B xx yy) m (fun j => vget yy j + act (sum n (fun i => f (den B i j) * vget xx i)))) ->
      forall y1 : mtvec, sizes y1 = sizes y -> is_vec (concat (mt_loop (fun i j => op (blk A j i)) x y1)) (length (concat y1)) (fun r => vget (concat y1) r + act (sum (length (concat x)) (fun c => f (e c r) * vget (concat x) c))).
    Proof.
      intros A0 AA OP y1 SZ. assert (LL : length y1 = length y) by (apply (f_equal (@length _)) in SZ; unfold sizes in SZ; rewrite !map_length in SZ; auto).
      apply (loop_flat _ x y1 (fun r c => f (e c r)) act); auto. intros i j yi Hi Hj Hl. rewrite LL in Hi. assert (HL : length (vblk y1 i) = length (vblk y i)) by (rewrite <- !nth_sizes, SZ; auto).
      assert (BW : mat_wf (length (vblk x j)) (length (vblk y i)) (blk A j i)) by (rewrite <- !nth_sizes; apply WF; unfold sizes; rewrite map_length; auto).
      destruct (OP _ _ (blk A j i) (vblk x j) yi BW eq_refl) as [P1 P2]; [congruence|]. split; [congruence|]. intros r Hr. rewrite P2 by lia. do 2 f_equal. apply sum_ext. intros c Hc. do 2 f_equal. rewrite SZ. symmetry. apply flat_entry_at; rewrite ?nth_sizes; try lia; unfold sizes; rewrite map_length; auto.
    Qed.
  End Transposed.
  Theorem C41_transposed_products (A : mtm) (x y : mtvec) : let hs := sizes x in let ws := sizes y in mt_wf hs ws A -> tr r0 = r0 -> hj r0 = r0 ->
    let e := flat_entry hs ws A in let X := concat x in let Y := concat y in
    let T r := sum (length X) (fun c => tr (e c r) * vget X c) in let H r := sum (length X) (fun c => hj (e c r) * vget X c) in
    is_vec (concat (mt_mtv A x y)) (length Y) T /\
    is_vec (concat (mt_umtv A x y)) (length Y) (fun r => vget Y r + T r) /\
    is_vec (concat (mt_mmtv A x y)) (length Y) (fun r => vget Y r - T r) /\
    (forall alpha, is_vec (concat (mt_usmtv alpha A x y)) (length Y) (fun r => vget Y r + alpha * T r)) /\
    is_vec (concat (mt_umhv A x y)) (length Y) (fun r => vget Y r + H r) /\
    is_vec (concat (mt_mmhv A x y)) (length Y) (fun r => vget Y r - H r) /\
    (forall alpha, is_vec (concat (mt_usmhv alpha A x y)) (length Y) (fun r => vget Y r + alpha * H r)).
  Proof.
    intros hs ws WF T0 H0 e X Y T H.
    assert (UM : forall y1 : mtvec, sizes y1 = sizes y -> is_vec (concat (mt_umtv A x y1)) (length (concat y1)) (fun r => vget (concat y1) r + T r)).
    { apply (trans_flat tr A x y WF (bcrs_umtv tr) (fun a => a)); auto. intros n m B xx yy W1 W2 W3. apply (C09_transposed_products tr n m B xx yy); auto. }
    split; [|split; [|split; [|split; [|split; [|split]]]]].
    - unfold mt_mtv. assert (SZ : sizes (mt_fill r0 y) = sizes y) by (unfold sizes, mt_fill; rewrite map_map; apply map_ext; intros a; apply map_length).
      destruct (UM (mt_fill r0 y) SZ) as [U1 U2]. assert (LF : length (concat (mt_fill r0 y)) = length Y) by (unfold Y; rewrite !length_concat, SZ; auto). split; [congruence|]. intros r Hr. rewrite U2 by congruence.
      replace (vget (concat (mt_fill r0 y)) r) with (@r0 R); [apply radd_0_l|]. unfold mt_fill. rewrite <- concat_map. unfold vget. symmetry. change r0 with ((fun _ : R => @r0 R) r0) at 2. rewrite map_nth. reflexivity.
    - apply UM. reflexivity.
    - destruct (trans_flat tr A x y WF (bcrs_mmtv tr) ropp) with (y1 := y) as [P1 P2]; auto; [ncring|intros; ncring| |].
      + intros n m B xx yy W1 W2 W3. destruct (C09_transposed_products tr n m B xx yy) as (_ & _ & [Q1 Q2] & _); auto. split; auto.
      + split; [exact P1|]. intros r Hr. unfold mt_mmtv. rewrite P2 by auto. fold hs ws e X Y. unfold T. ncring.
    - intros alpha. apply (trans_flat tr A x y WF (bcrs_usmtv tr alpha) (fun a => alpha * a)); auto; [ncring|intros; ncring|]. intros n m B xx yy W1 W2 W3. apply (C09_transposed_products tr n m B xx yy); auto.
    - apply (trans_flat hj A x y WF (bcrs_umhv hj) (fun a => a)); auto. intros n m B xx yy W1 W2 W3. apply (C09_conjugate_transposed_products hj n m B xx yy); auto.
    - destruct (trans_flat hj A x y WF (bcrs_mmhv hj) ropp) with (y1 := y) as [P1 P2]; auto; [ncring|intros; ncring| |].
      + intros n m B xx yy W1 W2 W3. destruct (C09_conjugate_transposed_products hj n m B xx yy) as (_ & [Q1 Q2] & _); auto. split; auto.
      + split; [exact P1|]. intros r Hr. unfold mt_mmhv. rewrite P2 by auto. fold hs ws e X Y. unfold H. ncring.
    - intros alpha. apply (trans_flat hj A x y WF (bcrs_usmhv hj alpha) (fun a => alpha * a)); auto; [ncring|intros; ncring|]. intros n m B xx yy W1 W2 W3. apply (C09_conjugate_transposed_products hj n m B xx yy); auto.
  Qed.

  (** ** Vector arithmetic (multitypeblockvector.hh) *)
  (** the entries are BlockVectors, whose operations act entry by entry (block_vector_unmanaged, bvector.hh:73-140) *)
  Definition vzip (f : R -> R -> R) (a b : vec R) : vec R := map (fun p => f (fst p) (snd p)) (combine a b).
  (** operator+= :167-172, operator-= :176-181, axpy :337-342: forEach(integralRange(size( *this)), i: ( *this)[i] op newv[i]) *)
  Definition mtv_zip (f : R -> R -> R) (x y : mtvec) : mtvec := for_ (length x) (fun i x => upd x i (vzip f (vblk x i) (vblk y i))) x.
  Definition mtv_add := mtv_zip (fun a b => a + b).
  Definition mtv_sub := mtv_zip (fun a b => a - b).
  Definition mtv_axpy (alpha : R) := mtv_zip (fun a b => a + alpha * b).
  (** operator*= :186-191 *)
  Definition mtv_scale (w : R) (x : mtvec) : mtvec := map (map (fun a => a * w)) x.
  Lemma upd_mid {X} (M : list X) a v t : upd (M ++ a :: t) (length M) v = (M ++ [v]) ++ t.
  Proof. induction M as [|m M IH]; cbn; auto. now rewrite IH. Qed.
  Lemma mtv_zip_map f (x y : mtvec) : mtv_zip f x y = map (fun i => vzip f (vblk x i) (vblk y i)) (seq 0 (length x)).
  Proof.
    unfold mtv_zip, for_. set (body := fun (s : mtvec) i => upd s i (vzip f (vblk s i) (vblk y i))).
    assert (G : forall n, n <= length x -> fold_left body (seq 0 n) x = map (fun i => vzip f (vblk x i) (vblk y i)) (seq 0 n) ++ skipn n x).
    { induction n as [|n IH]; intros Hn; [reflexivity|]. rewrite fold_seq_S, IH, seq_S, map_app by lia. unfold body. cbn [map Nat.add].
      assert (LM : length (map (fun i => vzip f (vblk x i) (vblk y i)) (seq 0 n)) = n) by (rewrite map_length, seq_length; auto). set (M := map (fun i => vzip f (vblk x i) (vblk y i)) (seq 0 n)) in *.
      assert (SK : skipn n x = vblk x n :: skipn (S n) x). { clear - Hn. revert n Hn. induction x as [|a t IHt]; intros [|n] Hn; cbn in *; try lia; auto. unfold vblk in *. cbn. apply IHt. lia. }
      assert (VB : vblk (M ++ skipn n x) n = vblk x n) by (unfold vblk; rewrite app_nth2 by lia; rewrite LM, Nat.sub_diag, SK; reflexivity). rewrite VB, SK.
      rewrite <- (upd_mid M (vblk x n)), LM. reflexivity. }
    rewrite G by auto. rewrite skipn_all. apply app_nil_r.
  Qed.
  Lemma vzip_vec f (a b : vec R) : length a = length b -> is_vec (vzip f a b) (length a) (fun i => f (vget a i) (vget b i)).
  Proof.
    intros L. unfold vzip. split; [rewrite map_length, combine_length; lia|]. intros i Hi. unfold vget. rewrite (nth_indep _ r0 (f r0 r0)) by (rewrite map_length, combine_length; lia).
    change (f r0 r0) with ((fun p => f (fst p) (snd p)) (@r0 R, @r0 R)). rewrite map_nth, combine_nth by auto. reflexivity.
  Qed.
  Theorem C41_vector_arithmetic (x y : mtvec) : sizes x = sizes y -> let X := concat x in let Y := concat y in
    is_vec (concat (mtv_add x y)) (length X) (fun r => vget X r + vget Y r) /\
    is_vec (concat (mtv_sub x y)) (length X) (fun r => vget X r - vget Y r) /\
    (forall a, is_vec (concat (mtv_axpy a x y)) (length X) (fun r => vget X r + a * vget Y r)) /\
    (forall a, is_vec (concat (mtv_scale a x)) (length X) (fun r => vget X r * a)) /\
    (forall a, is_vec (concat (mt_fill a x)) (length X) (fun r => a)).
  Proof.
    intros SZ X Y.
    assert (Z : forall f, is_vec (concat (mtv_zip f x y)) (length X) (fun r => f (vget X r) (vget Y r))).
    { intros f. replace (concat (mtv_zip f x y)) with (vzip f X Y); [apply vzip_vec; unfold X, Y; rewrite !length_concat, SZ; auto|]. rewrite mtv_zip_map. unfold X, Y. clear X Y.
      revert y SZ. induction x as [|a t IH]; intros [|b t'] SZ; cbn in SZ; try discriminate; auto. injection SZ as LE ST. cbn [length seq map concat]. rewrite <- seq_shift, map_map. unfold vblk at 1 2. cbn [nth].
      transitivity (vzip f a b ++ vzip f (concat t) (concat t')); [|f_equal; apply (IH t' ST)]. unfold vzip. rewrite <- map_app. f_equal. clear - LE. revert b LE. induction a as [|u a IHa]; intros [|w b] LE; cbn in *; try discriminate; auto. rewrite IHa; auto. }
    split; [apply Z|]. split; [apply Z|]. split; [intros a; apply (Z (fun u v => u + a * v))|]. split; intros a.
    - unfold mtv_scale. rewrite <- concat_map. split; [apply map_length|]. intros i Hi. unfold vget. rewrite (nth_indep _ r0 (r0 * a)) by (rewrite map_length; auto). apply (map_nth (fun u => u * a)).
    - unfold mt_fill. rewrite <- concat_map. split; [apply map_length|]. intros i Hi. unfold vget. rewrite (nth_indep _ r0 a) by (rewrite map_length; auto). apply (map_nth (fun _ => a) _ a).
  Qed.

  (** ** Sums: dot, one_norm, two_norm2, dim, frobenius_norm2 *)
  Context {S : ring}.
  (** accumulate(integralRange(size), 0, a + ( *this)[i]*newv[i]) :203-208, 210-215; [p] is the product of two entries (with or without conjugation) *)
  Definition vdot (p : R -> R -> S) (a b : vec R) : S := fold_left (fun s q => s + p (fst q) (snd q)) (combine a b) r0.
  Definition mtv_dot (p : R -> R -> S) (x y : mtvec) : S := fold_left (fun s i => s + vdot p (vblk x i) (vblk y i)) (seq 0 (length x)) r0.
  (** one_norm, one_norm_real, two_norm2 :219-245; [nu] is the contribution of an entry *)
  Definition vnorm (nu : R -> S) (a : vec R) : S := fold_left (fun s q => s + nu q) a r0.
  Definition mtv_norm (nu : R -> S) (x : mtvec) : S := fold_left (fun s e => s + vnorm nu e) x r0.
  (** dim :113-120 *)
  Definition mtv_dim (x : mtvec) : nat := fold_left (fun s e => (s + length e)%nat) x 0.
  (** frobenius_norm2 :358-370, with that of BCRSMatrix as in bcrsmatrix.hh *)
  Definition bfrob (nu : R -> S) (A : smat R) : S := fold_left (fun s row => fold_left (fun s e => s + nu (snd e)) row s) A r0.
  Definition mt_frob (nu : R -> S) (n m : nat) (A : mtm) : S := for_ n (fun i => for_ m (fun j s => s + bfrob nu (blk A i j))) r0.
  Lemma fold_add {X} (f : X -> S) l (a : S) : fold_left (fun s q => s + f q) l a = a + lsum (map f l).
  Proof. apply fold_left_add. Qed.
  Lemma lsum_combine (p : R -> R -> S) (a b : vec R) : length a = length b -> lsum (map (fun q => p (fst q) (snd q)) (combine a b)) = sum (length a) (fun i => p (vget a i) (vget b i)).
  Proof.
    revert b. induction a as [|u a IH]; intros [|w b] L; cbn in L; try discriminate; auto. cbn [combine map lsum length]. rewrite IH by auto. rewrite sum_S_l. reflexivity.
  Qed.
  Theorem C41_vector_sums (x y : mtvec) (p : R -> R -> S) (nu : R -> S) : let X := concat x in let Y := concat y in
    (sizes x = sizes y -> mtv_dot p x y = sum (length X) (fun r => p (vget X r) (vget Y r))) /\
    mtv_norm nu x = sum (length X) (fun r => nu (vget X r)) /\
    mtv_dim x = length X.
  Proof.
    intros X Y. split; [|split].
    - intros SZ. unfold mtv_dot. rewrite fold_add, radd_0_l, lsum_seq. unfold X at 1. rewrite length_concat, sum_flat. replace (length (sizes x)) with (length x) by (symmetry; apply map_length). apply sum_ext. intros i Hi. unfold vdot. rewrite fold_add, radd_0_l.
      assert (LI : length (vblk x i) = length (vblk y i)) by (rewrite <- !nth_sizes, SZ; auto). rewrite lsum_combine by auto. rewrite nth_sizes. apply sum_ext. intros c Hc. unfold X, Y. rewrite vget_concat by auto. rewrite SZ, vget_concat; auto; [|lia]. apply (f_equal (@length _)) in SZ. unfold sizes in SZ. rewrite !map_length in SZ. lia.
    - unfold mtv_norm, X. clear X Y. rewrite fold_add, radd_0_l. transitivity (lsum (map nu (concat x))).
      + induction x as [|a t IH]; auto. cbn [map lsum concat]. rewrite map_app, lsum_app, <- IH. f_equal. unfold vnorm. now rewrite fold_add, radd_0_l.
      + induction (concat x) as [|a l IH]; auto. cbn [map lsum length]. rewrite IH, sum_S_l. reflexivity.
    - unfold mtv_dim, X. rewrite length_concat. unfold sizes. assert (G : forall l a, fold_left (fun s e => (s + length e)%nat) l a = (a + list_sum (map (@length R) l))%nat); [|rewrite G; auto].
      induction l as [|b l IH]; intros a; cbn; [lia|]. rewrite IH. unfold list_sum. lia.
  Qed.
  Lemma for_add n (f : nat -> S) (a : S) : for_ n (fun i s => s + f i) a = a + sum n f.
  Proof. unfold for_. rewrite fold_add, lsum_seq. reflexivity. Qed.
  Theorem C41_frobenius (hs ws : list nat) (A : mtm) (nu : R -> S) : mt_wf hs ws A -> nu r0 = r0 ->
    mt_frob nu (length hs) (length ws) A = sum (list_sum hs) (fun r => sum (list_sum ws) (fun c => nu (flat_entry hs ws A r c))).
  Proof.
    intros WF N0. unfold mt_frob.
    assert (BF : forall n m (B : smat R), mat_wf n m B -> bfrob nu B = sum n (fun r => sum m (fun c => nu (den B r c)))).
    { intros n m B [L F]. unfold bfrob. assert (G : forall C a, Forall (row_wf m) C -> fold_left (fun s row => fold_left (fun s e => s + nu (snd e)) row s) C a = a + sum (length C) (fun r => sum m (fun c => nu (den C r c)))).
      { induction C as [|row C IH]; intros a FC; cbn [fold_left length]; [cbn; now rewrite radd_0_r|]. inversion FC as [|? ? [W1 W2] FC']; subst. rewrite IH by auto. rewrite (fold_add (fun e => nu (snd e))), sum_S_l.
        replace (lsum (map (fun e : nat * R => nu (snd e)) row)) with (sum m (fun c => nu (den (row :: C) 0 c))). 2:{ unfold den. cbn [nth]. clear - W1 W2 N0.
          assert (HN : NoDup (map fst row)) by (apply ssorted_NoDup; auto). clear W1. induction row as [|[k a] t IH]; cbn [map lsum]; [apply sum_zero; auto|]. cbn in HN, W2. apply NoDup_cons_iff in HN. destruct HN as [NI HN]. apply Forall_cons_iff in W2. destruct W2 as [K W2]. rewrite <- IH by auto.
          rewrite (sum_remove m k) by auto. cbn [denrow fst snd]. rewrite Nat.eqb_refl. f_equal. apply sum_ext. intros j Hj. rewrite (Nat.eqb_sym k j). destruct (Nat.eqb_spec j k) as [->|]; auto. rewrite denrow_notin by auto. auto. }
        change (fun i => sum m (fun c => nu (den (row :: C) (Datatypes.S i) c))) with (fun r => sum m (fun c => nu (den C r c))). ncring. }
      rewrite G by auto. rewrite L. apply radd_0_l. }
    transitivity (sum (length hs) (fun i => sum (length ws) (fun j => bfrob nu (blk A i j)))).
    - unfold for_ at 1. set (F := fun i => sum (length ws) (fun j => bfrob nu (blk A i j))).
      assert (EQ : forall l a, fold_left (fun s i => for_ (length ws) (fun j s => s + bfrob nu (blk A i j)) s) l a = fold_left (fun s i => s + F i) l a).
      { induction l as [|i l IH]; intros a; cbn [fold_left]; auto. rewrite for_add. apply IH. }
      rewrite EQ, fold_add, lsum_seq. apply radd_0_l.
    - rewrite sum_flat. apply sum_ext. intros i Hi. transitivity (sum (nth i hs 0) (fun r => sum (length ws) (fun j => sum (nth j ws 0) (fun c => nu (den (blk A i j) r c))))).
      + rewrite sum_swap. apply sum_ext. intros j Hj. apply BF. apply WF; auto.
      + apply sum_ext. intros r Hr. rewrite sum_flat. apply sum_ext. intros j Hj. apply sum_ext. intros c Hc. rewrite flat_entry_at by auto. reflexivity.
  Qed.

  (** ** Matrix += and -= (multitypeblockmatrix.hh:173-195): row by row, block by block; an exception leaves the blocks reached so far changed *)
  Fixpoint mt_accrow (f : R -> R -> R) (a b : list (smat R)) : res (list (smat R)) unit :=
    match a, b with
    | nil, _ => ROk nil tt
    | p :: a', q :: b' => match mat_acc f p q with
        | ROk p' _ => match mt_accrow f a' b' with ROk r _ => ROk (p' :: r) tt | RThrow r e => RThrow (p' :: r) e | RUB => RUB end
        | RThrow p' e => RThrow (p' :: a') e
        | RUB => RUB
        end
    | _ :: _, nil => RUB
    end.
  Fixpoint mt_acc (f : R -> R -> R) (A B : mtm) : res mtm unit :=
    match A, B with
    | nil, _ => ROk nil tt
    | p :: a', q :: b' => match mt_accrow f p q with
        | ROk p' _ => match mt_acc f a' b' with ROk r _ => ROk (p' :: r) tt | RThrow r e => RThrow (p' :: r) e | RUB => RUB end
        | RThrow p' e => RThrow (p' :: a') e
        | RUB => RUB
        end
    | _ :: _, nil => RUB
    end.
  (** operator+=, operator-=, multitypeblockmatrix.hh:177-205 *)
  Definition mt_add := mt_acc (fun a b => a + b).
  Definition mt_sub := mt_acc (fun a b => a - b).
  Definition mt_shape (n m : nat) (A : mtm) : Prop := length A = n /\ Forall (fun row => length row = m) A.
  Lemma accrow_ok f (P : smat R -> smat R -> smat R -> Prop) a b : (forall k, k < length a -> exists c, mat_acc f (nth k a nil) (nth k b nil) = ROk c tt /\ P (nth k a nil) (nth k b nil) c) -> length a = length b ->
    exists r, mt_accrow f a b = ROk r tt /\ length r = length a /\ forall k, k < length a -> P (nth k a nil) (nth k b nil) (nth k r nil).
  Proof.
    revert b. induction a as [|p a IH]; intros [|q b] H L; cbn in L; try discriminate. - exists nil. repeat split; auto. cbn. lia.
    - destruct (H 0) as (c & E & PC); [cbn; lia|]. cbn [nth] in E, PC. destruct (IH b) as (r & ER & LR & PR); [|auto|]. { intros k Hk. apply (H (Datatypes.S k)). cbn. lia. }
      exists (c :: r). cbn [mt_accrow]. rewrite E, ER. split; auto. split; [cbn; auto|]. intros [|k] Hk; cbn [nth]; auto. apply PR. cbn in Hk. lia.
  Qed.
  Lemma acc_ok f (P : smat R -> smat R -> smat R -> Prop) n m (A B : mtm) : mt_shape n m A -> mt_shape n m B -> (forall i j, i < n -> j < m -> exists c, mat_acc f (blk A i j) (blk B i j) = ROk c tt /\ P (blk A i j) (blk B i j) c) ->
    exists C, mt_acc f A B = ROk C tt /\ mt_shape n m C /\ forall i j, i < n -> j < m -> P (blk A i j) (blk B i j) (blk C i j).
  Proof.
    intros [LA FA] [LB FB]. revert n B LA LB FB. induction A as [|p A IH]; intros n [|q B] LA LB FB H; cbn in LA, LB; subst; try discriminate.
    - exists nil. split; auto. split; [split; auto|]. intros i j Hi. lia.
    - inversion FA as [|? ? LP FA']; subst. inversion FB as [|? ? LQ FB']; subst. injection LB as LB. 
      destruct (accrow_ok f P p q) as (r & ER & LR & PR); [|auto|]. { intros k Hk. apply (H 0 k); [lia|lia]. }
      destruct (IH FA' (length A) B) as (C & EC & SC & PC); auto. { intros i j Hi Hj. apply (H (Datatypes.S i) j); [lia|auto]. }
      exists (r :: C). cbn [mt_acc]. rewrite ER, EC. split; auto. destruct SC as [SC1 SC2]. split; [split; [cbn; auto|constructor; auto; lia]|]. intros [|i] j Hi Hj; [apply PR; lia|]. apply (PC i j); lia.
  Qed.
  Theorem C41_matrix_arithmetic (hs ws : list nat) (A B : mtm) : mt_shape (length hs) (length ws) A -> mt_shape (length hs) (length ws) B -> mt_wf hs ws A -> mt_wf hs ws B ->
    (forall i j, i < length hs -> j < length ws -> forall r c, instored (blk B i j) r c -> instored (blk A i j) r c) ->
    let e M := flat_entry hs ws M in
    (exists C, mt_add A B = ROk C tt /\ forall r c, r < list_sum hs -> c < list_sum ws -> e C r c = e A r c + e B r c) /\
    (exists C, mt_sub A B = ROk C tt /\ forall r c, r < list_sum hs -> c < list_sum ws -> e C r c = e A r c - e B r c).
  Proof.
    intros SA SB WA WB INC e.
    assert (G : forall f, (forall i j, i < length hs -> j < length ws -> exists C, mat_acc f (blk A i j) (blk B i j) = ROk C tt /\ forall r c, r < nth i hs 0 -> den C r c = f (den (blk A i j) r c) (den (blk B i j) r c)) ->
      exists C, mt_acc f A B = ROk C tt /\ forall r c, r < list_sum hs -> c < list_sum ws -> e C r c = f (e A r c) (e B r c)).
    { intros f H. destruct (acc_ok f (fun a b c => True) _ _ A B SA SB) as (C & EC & SC & _). { intros i j Hi Hj. destruct (H i j Hi Hj) as (c & E & _). eauto. }
      exists C. split; auto.
      (* the blocks of C *)
      destruct (acc_ok f (fun a b c => mat_acc f a b = ROk c tt) _ _ A B SA SB) as (C' & EC' & _ & PC). { intros i j Hi Hj. destruct (H i j Hi Hj) as (c & E & _). eauto. }
      assert (C' = C) by congruence. subst C'. intros r c Hr Hc. destruct (locate_spec _ _ Hr) as (i & r' & _ & Hi & Hr' & ->). destruct (locate_spec _ _ Hc) as (j & c' & _ & Hj & Hc' & ->). unfold e. rewrite !flat_entry_at by auto.
      destruct (H i j Hi Hj) as (c & E & D). rewrite (PC i j Hi Hj) in E. injection E as ->. apply D. auto. }
    split; [apply (G (fun a b => a + b))|apply (G (fun a b => a - b))]; intros i j Hi Hj; destruct (C10_matrix_arithmetic tr hj _ _ (blk A i j) (blk B i j) (WA i j Hi Hj) (WB i j Hi Hj) (INC i j Hi Hj)) as ((C & E & _ & D) & (C' & E' & _ & D') & _); eauto.
  Qed.
End MT.
Definition ex41A : list (list (smat Zring)) := [[ [[(0, 2%Z); (2, 3%Z)]; [(1, 5%Z)]]; [[(0, 7%Z)]; []] ]; [ [[(2, 1%Z)]]; [[]] ]].
Example C41_nonvacuous : mt_wf [2; 1] [3; 1] ex41A /\ mt_umv (R := Zring) ex41A [[1;10;100]; [2]]%Z [[1; 1]; [1]]%Z = [[317; 51]; [101]]%Z /\ flat_entry [2; 1] [3; 1] ex41A 0 3 = 7%Z /\
  mt_mtv (R := Zring) (fun a => a) ex41A [[1; 10]; [4]]%Z [[9; 9; 9]; [9]]%Z = [[2; 50; 7]; [7]]%Z.
Proof.
  split; [|repeat split; reflexivity]. intros [|[|i]] [|[|j]] Hi Hj; cbn in Hi, Hj; try lia; (split; [reflexivity|]); repeat constructor.
Qed.
Print Assumptions C41_products.
Print Assumptions C41_transposed_products.
Print Assumptions C41_vector_arithmetic.
Print Assumptions C41_vector_sums.
Print Assumptions C41_frobenius.
Print Assumptions C41_matrix_arithmetic.
