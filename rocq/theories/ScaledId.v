(** * ScaledIdentityMatrix (C40): dune/istl/scaledidmatrix.hh *)
From Coq Require Import Arith List Lia Bool.
From Verif Require Import Ring Sums RingInst Outcome Sparse MatVec Dense.
Import ListNotations.
Open Scope nat_scope.

Section ScaledId.
  Context {R : ring}.
  Local Open Scope ring_scope_istl.
  Hypothesis comm : forall a b : R, a * b = b * a.
  Variable conj : R -> R.                 (* conjugateComplex *)
  Variable inv : R -> option R.           (* division: None for division by zero *)
  Hypothesis inv_ok : forall a u, inv a = Some u -> a * u = r1.
  Variable n : nat.

  (** the object is its member p_ (scaledidmatrix.hh:484-486); every loop is for (i=0; i<n; ++i) y[i] = ... *)
  Definition loop (f : nat -> R -> R) (y : vec R) : vec R := for_ n (fun i y => upd y i (f i (vget y i))) y.
  (** mv, mtv, umv, umtv, umhv, mmv, mmtv, mmhv, usmv, usmtv, usmhv (scaledidmatrix.hh:212-352) *)
  Definition si_mv (p : R) (x y : vec R) := loop (fun i _ => p * vget x i) y.
  Definition si_mtv (p : R) (x y : vec R) := si_mv p x y.
  Definition si_umv (p : R) (x y : vec R) := loop (fun i v => v + p * vget x i) y.
  Definition si_umtv (p : R) (x y : vec R) := loop (fun i v => v + p * vget x i) y.
  Definition si_umhv (p : R) (x y : vec R) := loop (fun i v => v + conj p * vget x i) y.
  Definition si_mmv (p : R) (x y : vec R) := loop (fun i v => v - p * vget x i) y.
  Definition si_mmtv (p : R) (x y : vec R) := loop (fun i v => v - p * vget x i) y.
  Definition si_mmhv (p : R) (x y : vec R) := loop (fun i v => v - conj p * vget x i) y.
  Definition si_usmv (alpha p : R) (x y : vec R) := loop (fun i v => v + alpha * p * vget x i) y.
  Definition si_usmtv (alpha p : R) (x y : vec R) := loop (fun i v => v + alpha * p * vget x i) y.
  Definition si_usmhv (alpha p : R) (x y : vec R) := loop (fun i v => v + alpha * conj p * vget x i) y.
  (** solve :385-390, invert :394-397; division by zero is not defined here (floating point gives infinities) *)
  Definition si_solve (p : R) (x b : vec R) : option (vec R) := match inv p with Some u => Some (loop (fun i _ => vget b i * u) x) | None => if n =? 0 then Some x else None end.
  Definition si_invert (p : R) : option R := option_map (fun u => r1 * u) (inv p).
  (** determinant :400-402, frobenius_norm2 :362-366, exists :421-428, operators :151-206 *)
  Fixpoint rpow (p : R) (k : nat) : R := match k with 0 => r1 | S k' => p * rpow p k' end.
  Definition si_det (p : R) : R := rpow p n.
  Fixpoint rnat (k : nat) : R := match k with 0 => r0 | S k' => rnat k' + r1 end.
  Definition si_frobenius2 (p : R) : R := rnat n * p * p.
  Definition si_exists (i j : nat) : bool := i =? j.
  Definition si_add (p q : R) : R := p + q.
  Definition si_sub (p q : R) : R := p - q.
  Definition si_mul (p k : R) : R := p * k.
  (** DenseMatrixAssigner::apply :493-503 *)
  Definition si_dense (m : @dmx R) (p : R) : @dmx R := for_ n (fun i m => dset m i i p) (dfill m r0).

  (** ** Specification: the dense matrix p I *)
  Definition scaled_id (p : R) (i j : nat) : R := if i =? j then p else r0.
  (** determinant by expansion along the first row *)
  Fixpoint det (k : nat) (M : nat -> nat -> R) : R :=
    match k with
    | 0 => r1
    | S k' => sum (S k') (fun j => (if Nat.even j then M 0 j else - M 0 j) * det k' (fun a b => M (S a) (if b <? j then b else S b)))
    end.

  Lemma loop_ok f (y : vec R) : length y = n -> is_vec (loop f y) n (fun i => f i (vget y i)).
  Proof.
    intros Hy. assert (G : forall k, k <= n -> let y' := for_ k (fun i y => upd y i (f i (vget y i))) y in length y' = n /\ forall i, vget y' i = if i <? k then f i (vget y i) else vget y i).
    { cbv zeta. induction k as [|k IH]; intros Hk; [split; auto|]. destruct IH as [L V]; [lia|]. rewrite for_S. split; [rewrite upd_length; auto|]. intros i. unfold vget at 1. rewrite nth_upd, L. destruct (Nat.eqb_spec k i) as [->|NE].
      - destruct (Nat.ltb_spec i n); [|lia]. destruct (Nat.ltb_spec i (S i)); [|lia]. rewrite V, Nat.ltb_irrefl. auto.
      - fold (vget (for_ k (fun i y => upd y i (f i (vget y i))) y) i). rewrite V. destruct (Nat.ltb_spec i k), (Nat.ltb_spec i (S k)); auto; lia. }
    destruct (G n (le_n n)) as [L V]. split; auto. intros i Hi. unfold loop. rewrite V. destruct (Nat.ltb_spec i n); [auto|lia].
  Qed.
  Lemma sid_row p i (x : nat -> R) : i < n -> sum n (fun j => scaled_id p i j * x j) = p * x i.
  Proof. intros Hi. rewrite (sum_single n i) by (first [assumption|intros j Hj NE; unfold scaled_id; destruct (Nat.eqb_spec i j); [congruence|ncring]]). unfold scaled_id. rewrite Nat.eqb_refl. auto. Qed.
  Lemma sid_col p j (x : nat -> R) : j < n -> sum n (fun i => scaled_id p i j * x i) = p * x j.
  Proof. intros Hi. rewrite (sum_single n j) by (first [assumption|intros i Hj NE; unfold scaled_id; destruct (Nat.eqb_spec i j); [congruence|ncring]]). unfold scaled_id. rewrite Nat.eqb_refl. auto. Qed.
  (** every product is the product with the dense matrix p I *)
  Theorem C40_products p (x y : vec R) : length x = n -> length y = n -> conj r0 = r0 ->
    let A := scaled_id p in let H := fun i j => conj (scaled_id p i j) in
    is_vec (si_mv p x y) n (fun i => sum n (fun j => A i j * vget x j)) /\ is_vec (si_mtv p x y) n (fun j => sum n (fun i => A i j * vget x i)) /\
    is_vec (si_umv p x y) n (fun i => vget y i + sum n (fun j => A i j * vget x j)) /\ is_vec (si_umtv p x y) n (fun j => vget y j + sum n (fun i => A i j * vget x i)) /\
    is_vec (si_umhv p x y) n (fun j => vget y j + sum n (fun i => H i j * vget x i)) /\
    is_vec (si_mmv p x y) n (fun i => vget y i - sum n (fun j => A i j * vget x j)) /\ is_vec (si_mmtv p x y) n (fun j => vget y j - sum n (fun i => A i j * vget x i)) /\
    is_vec (si_mmhv p x y) n (fun j => vget y j - sum n (fun i => H i j * vget x i)) /\
    forall alpha, is_vec (si_usmv alpha p x y) n (fun i => vget y i + alpha * sum n (fun j => A i j * vget x j)) /\ is_vec (si_usmtv alpha p x y) n (fun j => vget y j + alpha * sum n (fun i => A i j * vget x i)) /\
                  is_vec (si_usmhv alpha p x y) n (fun j => vget y j + alpha * sum n (fun i => H i j * vget x i)).
  Proof.
    intros Hx Hy HC. cbv zeta.
    assert (E : forall f g, (forall i, i < n -> f i (vget y i) = g i) -> is_vec (loop f y) n g) by (intros f g H; destruct (loop_ok f y Hy) as [L V]; split; auto; intros i Hi; rewrite V; auto).
    assert (EH : forall j, j < n -> sum n (fun i => conj (scaled_id p i j) * vget x i) = conj p * vget x j).
    { intros j Hj. rewrite <- (sid_col (conj p) j) by auto. apply sum_ext. intros i Hi. unfold scaled_id. destruct (i =? j); auto. rewrite HC. auto. }
    repeat match goal with |- _ /\ _ => split | |- forall _, _ => intros alpha end; apply E; intros i Hi; rewrite ?EH, ?sid_row, ?sid_col by auto; auto; rewrite rmul_assoc; auto.
  Qed.
  (** sums, multiples, inverse and solution are those of p I; determinant, norms and pattern too *)
  Theorem C40_algebra p q k i j : i < n -> j < n ->
    scaled_id (si_add p q) i j = scaled_id p i j + scaled_id q i j /\ scaled_id (si_sub p q) i j = scaled_id p i j - scaled_id q i j /\ scaled_id (si_mul p k) i j = scaled_id p i j * k /\
    (si_exists i j = false -> scaled_id p i j = r0) /\ (si_exists i j = true -> scaled_id p i j = p) /\
    (forall u, si_invert p = Some u -> sum n (fun l => scaled_id p i l * scaled_id u l j) = scaled_id r1 i j /\ sum n (fun l => scaled_id u i l * scaled_id p l j) = scaled_id r1 i j).
  Proof.
    intros Hi Hj. unfold si_add, si_sub, si_mul, si_exists. split; [unfold scaled_id; destruct (i =? j); ncring|]. split; [unfold scaled_id; destruct (i =? j); ncring|]. split; [unfold scaled_id; destruct (i =? j); ncring|].
    split; [unfold scaled_id; intros ->; auto|]. split; [unfold scaled_id; intros ->; auto|]. intros u H. unfold si_invert in H. destruct (inv p) as [v|] eqn:E; [|discriminate]. injection H as <-. apply inv_ok in E. rewrite !rmul_1_l.
    rewrite !sid_row by auto. unfold scaled_id. destruct (i =? j); rewrite ?rmul_0_r; auto. rewrite E, (comm v p), E. auto.
  Qed.
  Theorem C40_solve p (x b : vec R) u : length x = n -> length b = n -> inv p = Some u -> exists x', si_solve p x b = Some x' /\ length x' = n /\ forall i, i < n -> sum n (fun j => scaled_id p i j * vget x' j) = vget b i.
  Proof.
    intros Hx Hb E. unfold si_solve. rewrite E. destruct (loop_ok (fun i _ => vget b i * u) x Hx) as [L V]. eexists. split; [reflexivity|]. split; auto. intros i Hi. rewrite sid_row, V by auto. rewrite (comm (vget b i)), rmul_assoc. rewrite (inv_ok p u E). apply rmul_1_l.
  Qed.
  Lemma sum_const k (a : R) : sum k (fun _ => a) = rnat k * a.
  Proof. induction k as [|k IH]; cbn [sum rnat]; [symmetry; apply rmul_0_l|]. rewrite IH. ncring. Qed.
  Theorem C40_frobenius p : si_frobenius2 p = sum n (fun i => sum n (fun j => scaled_id p i j * scaled_id p i j)).
  Proof.
    unfold si_frobenius2. rewrite <- rmul_assoc, <- (sum_const n (p * p)). apply sum_ext. intros i Hi. rewrite sid_row by auto. unfold scaled_id. rewrite Nat.eqb_refl. auto.
  Qed.
  (** infinity_norm (= abs p_) is the sum of absolute values of every row *)
  Theorem C40_row_sums (abs : R -> R) p i : abs r0 = r0 -> i < n -> sum n (fun j => abs (scaled_id p i j)) = abs p.
  Proof. intros H0 Hi. rewrite (sum_single n i) by (first [assumption|intros j Hj NE; unfold scaled_id; destruct (Nat.eqb_spec i j); [congruence|auto]]). unfold scaled_id. rewrite Nat.eqb_refl. auto. Qed.
  Lemma det_ext k : forall M N, (forall i j, i < k -> j < k -> M i j = N i j) -> det k M = det k N.
  Proof.
    induction k as [|k IH]; intros M N H; auto. cbn [det]. apply sum_ext. intros j Hj. rewrite (H 0 j) by lia. f_equal. apply IH. intros a b Ha Hb. apply H; [lia|]. destruct (b <? j); lia.
  Qed.
  Theorem C40_determinant p : si_det p = det n (scaled_id p).
  Proof.
    unfold si_det. clear. induction n as [|k IH]; auto. cbn [det rpow]. rewrite (sum_single (S k) 0) by (first [lia|intros j Hj NE; unfold scaled_id; destruct (Nat.eqb_spec 0 j); [congruence|]; destruct (Nat.even j); ncring]).
    cbn [Nat.even]. unfold scaled_id at 1. cbn [Nat.eqb]. f_equal. rewrite IH. apply det_ext. intros i j Hi Hj. unfold scaled_id. reflexivity.
  Qed.
  (** assigning to a dense matrix of the right size gives p I, whatever it held before *)
  Theorem C40_to_dense m p : dwf m -> d_rows m = n -> d_cols m = n -> is_mat (si_dense m p) n n (scaled_id p).
  Proof.
    intros HW H1 H2. unfold si_dense. destruct (C38_arithmetic m m n n HW HW H1 H2 H1 H2) as (_ & _ & HF). destruct (HF r0) as (_ & F1 & F2 & F3 & F4).
    assert (G : forall k, k <= n -> let o := for_ k (fun i m => dset m i i p) (dfill m r0) in dwf o /\ d_rows o = n /\ d_cols o = n /\ forall i j, i < n -> j < n -> dget o i j = if (i =? j) && (i <? k) then p else r0).
    { cbv zeta. induction k as [|k IH]; intros Hk; [cbn [for_ seq fold_left]; repeat (split; auto); intros i j Hi Hj; rewrite andb_false_r; auto|]. destruct IH as (W & D1 & D2 & V); [lia|]. rewrite for_S. split; [apply dset_wf; auto|]. split; auto. split; auto.
      intros i j Hi Hj. rewrite dget_dset by (auto; lia). rewrite V by auto. destruct (Nat.eqb_spec i k), (Nat.eqb_spec j k), (Nat.eqb_spec i j), (Nat.ltb_spec i k), (Nat.ltb_spec i (S k)); cbn [andb]; subst; auto; lia. }
    destruct (G n (le_n n)) as (W & D1 & D2 & V). split; auto. split; auto. split; auto. intros i j Hi Hj. rewrite V by auto. unfold scaled_id. destruct (Nat.ltb_spec i n); [rewrite andb_true_r; auto|lia].
  Qed.
End ScaledId.
From Coq Require Import ZArith.
Example C40_nonvacuous : si_mv (R := Zring) 3 5%Z [1%Z; 2%Z; 3%Z] [7%Z; 7%Z; 7%Z] = [5%Z; 10%Z; 15%Z] /\ si_det (R := Zring) 3 5%Z = 125%Z /\ det (R := Zring) 3 (scaled_id (R := Zring) 5%Z) = 125%Z /\ d_p (si_dense (R := Zring) 2 (mkdmx (R := Zring) 2 2 [9%Z; 9%Z; 9%Z; 9%Z]) 4%Z) = [4%Z; 0%Z; 0%Z; 4%Z].
Proof. repeat split. Qed.
Print Assumptions C40_products.
Print Assumptions C40_algebra.
Print Assumptions C40_solve.
Print Assumptions C40_determinant.
Print Assumptions C40_to_dense.
