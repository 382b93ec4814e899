(** * Overlapping Schwarz with direct solvers (C82): dune/istl/overlappingschwarz.hh, dune/istl/bccsmatrixinitializer.hh, dune/istl/superlu.hh

    If the subdomain solvers are direct solvers and are not set up on the fly, the arrays of all local matrices are filled in the same three passes over the global matrix
    (OverlappingSchwarzInitializer): each row and each entry is handed to the initializers of the subdomains the row belongs to.  Modelled: this assembly, the two constructors that call it,
    the objects it leaves (SuperLU, Superlu.v), and the preconditioner (SeqSchwarz.v) with these objects.  Index types are unbounded.  Assertions are not executed. *)
From Coq Require Import ZArith Arith List Lia Bool Sorted.
From Verif Require Import Outcome Ring Sums Sparse MatVec Foreach Cholmod Bccs Umfpack Ldl Superlu RingInst Ilu Ildl Precond Adjoint SymPrecond SeqSchwarz.
Import ListNotations.
Open Scope nat_scope.

Section Assemble.
  Context {T : Type}.
  Variable t0 : T.

  (** ** Model *)
  (** for (d in ds) f(d, l[d]), with l[d] out of bounds UB: the loops over the subdomains of a row, overlappingschwarz.hh:898-901, 917-922, 936-943 *)
  Fixpoint each {X} (f : nat -> X -> outcome X) (ds : list nat) (l : list X) : outcome (list X) :=
    match ds with
    | nil => Ok l
    | d :: t => match nth_error l d with Some s => obind (f d s) (fun s' => each f t (upd l d s')) | None => UB end
    end.
  (** a pass over rows or entries; each item is handed to the subdomains of its row, (indices)[row] out of bounds is UB *)
  Fixpoint walk {I X} (indices : list (list nat)) (row : I -> nat) (f : I -> nat -> X -> outcome X) (items : list I) (l : list X) : outcome (list X) :=
    match items with
    | nil => Ok l
    | i :: t => match nth_error indices (row i) with Some ds => obind (each (f i) ds l) (walk indices row f t) | None => UB end
    end.
  (** IndexMap: a std::map and a counter, overlappingschwarz.hh:79-109, 954-992; insert() does nothing for a key that is there, but counts *)
  Definition mfind (m : list (nat * nat)) (g : nat) : option nat := option_map snd (find (fun e => fst e =? g) m).
  Definition minsert (m : list (nat * nat)) (g v : nat) : list (nat * nat) := match mfind m g with Some _ => m | None => m ++ [(g, v)] end.
  (** BCCSMatrixInitializer::addRowNnz(row, set), bccsmatrixinitializer.hh:150-163: the iterator into the set only moves forward *)
  Fixpoint skip (s : list nat) (j : nat) : list nat := match s with x :: t => if x <? j then skip t j else s | nil => nil end.
  Fixpoint count_set {X} (row : list (nat * X)) (s : list nat) : nat :=
    match row with
    | nil => 0
    | (j, _) :: t => match skip s j with nil => 0 | (x :: _) as s' => (if x =? j then 1 else 0) + count_set t s' end
    end.
  (** what the first pass changes for a subdomain: Nnz_, the map, its counter *)
  Record first_pass := FP { nnz : nat; imap : list (nat * nat); next : nat }.
  (** OverlappingSchwarzInitializer::addRowNnz, overlappingschwarz.hh:894-902 *)
  Definition addRow (domains : list (list nat)) (r : nat * list (nat * @blk T)) (d : nat) (s : first_pass) : outcome first_pass :=
    Ok (FP (nnz s + count_set (snd r) (nth d domains nil)) (minsert (imap s) (fst r) (next s)) (S (next s))).
  (** countEntries, overlappingschwarz.hh:913-923, with BCCSMatrixInitializer::countEntries (Bccs.v) *)
  Definition countEntry (n m : nat) (maps : list (list (nat * nat))) (v : nat * nat * @blk T) (d : nat) (marker : list nat) : outcome (list nat) :=
    let '(r, c, b) := v in match mfind (nth d maps nil) c with Some k => count_from n m k 0 m marker | None => Ok marker end.
  (** copyValue, overlappingschwarz.hh:932-944, with BCCSMatrixInitializer::copyValue (Bccs.v) *)
  Definition copyEntry (n m : nat) (maps : list (list (nat * nat))) (v : nat * nat * @blk T) (d : nat) (s : list nat * list nat * list T) : outcome (list nat * list nat * list T) :=
    let '(r, c, b) := v in
    match mfind (nth d maps nil) c with
    | Some k => match mfind (nth d maps nil) r with Some q => copy_rows n m q k b 0 n s | None => UB end
    | None => Ok s
    end.
  (** copyToBCCSMatrix(initializer, mat), bccsmatrixinitializer.hh:262-286, with allocate and calcColstart (overlappingschwarz.hh:904-911, 925-930) for n x m blocks; the d-th local matrix has
      m * |domains[d]| columns (overlappingschwarz.hh:1165-1168, 1104-1108), the arrays have Nnz_ * n * m entries *)
  Definition assemble_local (n m : nat) (A : @bmat T) (indices domains : list (list nat)) : outcome (list (@ccs T)) :=
    obind (walk indices fst (addRow domains) (combine (seq 0 (length A)) A) (map (fun _ => FP 0 nil 0) domains)) (fun fps =>
    let maps := map imap fps in
    obind (walk indices (fun v => fst (fst v)) (countEntry n m maps) (visits A) (map (fun D => repeat 0 (length D * m)) domains)) (fun markers =>
    let starts := map (calcColstart 0) markers in
    obind (walk indices (fun v => fst (fst v)) (copyEntry n m maps) (visits A) (map (fun p => (snd (snd p), repeat 0 (nnz (fst p) * (n * m)), repeat t0 (nnz (fst p) * (n * m)))) (combine fps starts))) (fun outs =>
    Ok (map (fun p => mkccs (fst (fst p)) (snd (fst (snd p))) (snd (snd p))) (combine starts outs))))).
  (** the constructor from subdomains: rowToDomain(mat.N()), rowToDomain[row].push_back(domainId), overlappingschwarz.hh:1081-1090 *)
  Fixpoint push_rows (id : nat) (D : list nat) (rtd : list (list nat)) : outcome (list (list nat)) :=
    match D with nil => Ok rtd | r :: t => match nth_error rtd r with Some l => push_rows id t (upd rtd r (l ++ [id])) | None => UB end end.
  Fixpoint push_domains (id : nat) (sd : list (list nat)) (rtd : list (list nat)) : outcome (list (list nat)) :=
    match sd with nil => Ok rtd | dom :: t => obind (push_rows id dom rtd) (push_domains (S id) t) end.
  Definition assemble_domains (n m : nat) (A : @bmat T) (sd : list (list nat)) : outcome (list (@ccs T)) :=
    obind (push_domains 0 sd (repeat nil (length A))) (fun rtd => assemble_local n m A rtd sd).
  (** the constructor from the row-to-domain lists, overlappingschwarz.hh:1009-1053; domains_of_rows: SeqSchwarz.v *)
  Definition assemble_rows (n m : nat) (A : @bmat T) (rtd : list (list nat)) : outcome (list (@ccs T)) := assemble_local n m A rtd (domains_of_rows rtd).

  (** ** Specification *)
  (** row r belongs to subdomain d iff d is listed, once, for row r *)
  Definition consistent (N : nat) (indices domains : list (list nat)) : Prop :=
    length indices = N /\ Forall (domain_wf N) domains /\
    forall r, r < N -> NoDup (nth r indices nil) /\ forall d, In d (nth r indices nil) <-> d < length domains /\ In r (nth d domains nil).

  (** ** Proofs: the passes, seen from one subdomain *)
  Fixpoint solo {I X} (indices : list (list nat)) (row : I -> nat) (f : I -> nat -> X -> outcome X) (items : list I) (d : nat) (s : X) : outcome X :=
    match items with
    | nil => Ok s
    | i :: t => if existsb (Nat.eqb d) (nth (row i) indices nil) then obind (f i d s) (solo indices row f t d) else solo indices row f t d s
    end.
  Lemma each_ok {X} (f : nat -> X -> outcome X) s0 g : forall ds (l : list X), NoDup ds -> (forall d, In d ds -> d < length l /\ f d (nth d l s0) = Ok (g d)) ->
    exists l', each f ds l = Ok l' /\ length l' = length l /\ forall d, d < length l -> nth d l' s0 = if existsb (Nat.eqb d) ds then g d else nth d l s0.
  Proof.
    induction ds as [|d t IH]; intros l ND H; cbn [each].
    - exists l. cbn. auto.
    - apply NoDup_cons_iff in ND. destruct ND as [NI ND]. destruct (H d (or_introl eq_refl)) as [Hd E]. rewrite (nth_error_nth' l s0 Hd), E. cbn [obind].
      destruct (IH (upd l d (g d)) ND) as (l' & E' & L & V).
      + intros e He. destruct (H e (or_intror He)) as [H1 H2]. rewrite upd_length. split; auto. rewrite nth_upd. destruct (Nat.eqb_spec d e) as [->|]; [contradiction|auto].
      + exists l'. rewrite upd_length in L. split; auto. split; auto. intros e He. rewrite V by (rewrite upd_length; auto). cbn [existsb]. rewrite nth_upd.
        destruct (Nat.eqb_spec e d) as [->|NE].
        * rewrite Nat.eqb_refl. cbn [orb]. destruct (Nat.ltb_spec d (length l)); [|lia]. destruct (existsb (Nat.eqb d) t); auto.
        * cbn [orb]. destruct (Nat.eqb_spec d e); [congruence|]. auto.
  Qed.
  Lemma walk_ok {I X} (indices : list (list nat)) (row : I -> nat) (f : I -> nat -> X -> outcome X) s0 : forall items (l : list X) g,
    Forall (fun i => row i < length indices /\ NoDup (nth (row i) indices nil) /\ Forall (fun d => d < length l) (nth (row i) indices nil)) items ->
    (forall d, d < length l -> solo indices row f items d (nth d l s0) = Ok (g d)) ->
    exists l', walk indices row f items l = Ok l' /\ length l' = length l /\ forall d, d < length l -> nth d l' s0 = g d.
  Proof.
    induction items as [|i t IH]; intros l g HF HS; cbn [walk].
    - exists l. split; auto. split; auto. intros d Hd. specialize (HS d Hd). cbn in HS. injection HS as ->. auto.
    - apply Forall_cons_iff in HF. destruct HF as [(HR & ND & HB) HF]. rewrite (nth_error_nth' indices nil HR). set (ds := nth (row i) indices nil) in *.
      assert (G : forall d, exists s', d < length l -> In d ds -> f i d (nth d l s0) = Ok s').
      { intros d. destruct (Nat.lt_ge_cases d (length l)) as [Hd|]; [|exists s0; lia]. destruct (in_dec Nat.eq_dec d ds) as [HI|]; [|exists s0; contradiction]. specialize (HS d Hd). cbn [solo] in HS. fold ds in HS.
        replace (existsb (Nat.eqb d) ds) with true in HS by (symmetry; apply existsb_exists; exists d; rewrite Nat.eqb_refl; auto). destruct (f i d (nth d l s0)) as [s'| |]; try discriminate. eauto. }
      destruct (each_ok (f i) s0 (fun d => match f i d (nth d l s0) with Ok s' => s' | _ => s0 end) ds l ND) as (l' & E & L & V).
      { intros d HI. rewrite Forall_forall in HB. split; auto. destruct (G d) as [s' Hs]. rewrite Hs; auto. }
      rewrite E. cbn [obind]. destruct (IH l' g) as (l2 & E2 & L2 & V2).
      + eapply Forall_impl; [|exact HF]. cbn. rewrite L. auto.
      + intros d Hd. rewrite L in Hd. rewrite V by auto. specialize (HS d Hd). cbn [solo] in HS. fold ds in HS. destruct (existsb (Nat.eqb d) ds); auto. destruct (f i d (nth d l s0)); cbn [obind] in HS; try discriminate. auto.
      + exists l2. split; auto. split; [congruence|]. intros d Hd. apply V2. lia.
  Qed.
  Lemma existsb_In d l : existsb (Nat.eqb d) l = true <-> In d l.
  Proof. rewrite existsb_exists. split; [intros (x & H & E); apply Nat.eqb_eq in E; subst; auto|intros H; exists d; rewrite Nat.eqb_refl; auto]. Qed.

  (** increasing row sets *)
  Definition inb (j : nat) (D : list nat) : bool := existsb (Nat.eqb j) D.
  Lemma flat_map_sorted {X} (g : nat -> list X) : forall n k D, StronglySorted lt D -> Forall (fun x => k <= x < k + n) D -> flat_map (fun r => if inb r D then g r else nil) (seq k n) = flat_map g D.
  Proof.
    induction n as [|n IH]; intros k D HS HF; cbn [seq flat_map].
    - destruct D as [|x D]; auto. apply Forall_inv in HF. lia.
    - assert (EXT : forall D1 D2 : list nat, (forall r, In r (seq (S k) n) -> inb r D1 = inb r D2) -> flat_map (fun r => if inb r D1 then g r else nil) (seq (S k) n) = flat_map (fun r => if inb r D2 then g r else nil) (seq (S k) n)).
      { intros D1 D2 H. rewrite !flat_map_concat_map. f_equal. apply map_ext_in. intros r Hr. now rewrite H. }
      destruct D as [|x D].
      + change (flat_map (fun r => if inb r nil then g r else nil) (seq (S k) n) = nil). rewrite (IH (S k) nil); auto.
      + inversion HS as [|? ? HS' HL]; subst. inversion HF as [|? ? HX HF']; subst. rewrite Forall_forall in HL. destruct (Nat.eq_dec x k) as [->|NE].
        * unfold inb at 1. cbn [existsb]. rewrite Nat.eqb_refl. cbn [orb flat_map]. f_equal. rewrite (EXT _ D).
          -- apply IH; auto. rewrite Forall_forall in *. intros y Hy. specialize (HF' y Hy). specialize (HL y Hy). lia.
          -- intros r Hr. apply in_seq in Hr. unfold inb. cbn [existsb]. destruct (Nat.eqb_spec r k); [lia|auto].
        * replace (inb k (x :: D)) with false. 2:{ symmetry. apply not_true_iff_false. unfold inb. rewrite existsb_In. intros [H|H]; [lia|]. specialize (HL k H). lia. }
          cbn [app]. apply IH; auto. rewrite Forall_forall in *. intros y [<-|Hy]; [lia|]. specialize (HF' y Hy). specialize (HL y Hy). lia.
  Qed.
  Lemma pos_inb D j : inb j D = match pos D j with Some _ => true | None => false end.
  Proof.
    unfold inb. destruct (pos D j) as [k|] eqn:E.
    - apply existsb_In. apply pos_some in E. destruct E as [H1 <-]. apply nth_In. auto.
    - apply not_true_iff_false. rewrite existsb_In. apply pos_none. auto.
  Qed.

  (** the entries of the local matrix: row and column numbers in the subdomain *)
  Notation visit := (nat * nat * @blk T)%type.
  Definition lrow (D : list nat) (q : nat) (row : list (nat * @blk T)) : list visit := flat_map (fun e => match pos D (fst e) with Some k => [(q, k, snd e)] | None => nil end) row.
  Definition local (D : list nat) (vs : list visit) : list visit := flat_map (fun v => match v with (r, c, b) => match pos D r, pos D c with Some q, Some k => [(q, k, b)] | _, _ => nil end end) vs.
  Lemma local_visits_gen D A : forall k, local D (flat_map (fun p => map (fun e => (fst p, fst e, snd e)) (snd p)) (combine (seq k (length A)) A)) = flat_map (fun r => match pos D r with Some q => lrow D q (nth (r - k) A nil) | None => nil end) (seq k (length A)).
  Proof.
    unfold local. induction A as [|row A IH]; intros k; cbn [length seq combine flat_map]; auto. rewrite flat_map_app, IH, Nat.sub_diag. cbn [fst snd nth]. f_equal.
    - destruct (pos D k) as [q|] eqn:EP.
      + unfold lrow. induction row as [|[c b] row IHr]; cbn [map flat_map fst snd]; auto. rewrite EP, IHr. reflexivity.
      + induction row as [|[c b] row IHr]; cbn [map flat_map fst snd]; auto. rewrite EP, IHr. reflexivity.
    - rewrite !flat_map_concat_map. f_equal. apply map_ext_in. intros r Hr. apply in_seq in Hr. replace (r - k) with (S (r - S k)) by lia. reflexivity.
  Qed.
  Lemma local_visits N D A : length A = N -> domain_wf N D -> local D (visits A) = flat_map (fun r => match pos D r with Some q => lrow D q (nth r A nil) | None => nil end) D.
  Proof.
    intros LA [HS HF]. unfold visits. rewrite local_visits_gen. rewrite <- (flat_map_sorted (fun r => match pos D r with Some q => lrow D q (nth r A nil) | None => nil end) (length A) 0 D HS).
    - rewrite !flat_map_concat_map. f_equal. apply map_ext_in. intros r Hr. rewrite Nat.sub_0_r, pos_inb. destruct (pos D r); auto.
    - eapply Forall_impl; [|exact HF]. cbn. lia.
  Qed.
  (** copySubset (Bccs.v) visits the same entries *)
  Lemma sub_row_lrow v D q row : (forall j, In j (map fst row) -> nth_error v j = Some (pos D j)) -> sub_row v q row = Ok (lrow D q row).
  Proof.
    intros H. induction row as [|[c b] row IH]; cbn [sub_row]; auto. rewrite (H c) by (left; auto). rewrite IH by (intros j Hj; apply H; right; auto). cbn [obind]. unfold lrow. cbn [flat_map fst snd]. destruct (pos D c); auto.
  Qed.
  Lemma sub_visits_local N A v D : length A = N -> (forall row, In row A -> Forall (fun j => j < N) (map fst row)) -> (forall j, j < N -> nth_error v j = Some (pos D j)) -> forall D0, Forall (fun x => x < N) D0 -> (forall x, In x D0 -> In x D) ->
    sub_visits A v D0 = Ok (flat_map (fun r => match pos D r with Some q => lrow D q (nth r A nil) | None => nil end) D0).
  Proof.
    intros LA HA HV. induction D0 as [|x D0 IH]; intros HF HI; cbn [sub_visits flat_map]; auto. apply Forall_cons_iff in HF. destruct HF as [HX HF].
    rewrite (nth_error_nth' A nil) by lia. rewrite HV by auto. destruct (pos D x) as [q|] eqn:EP; [|apply pos_none in EP; exfalso; apply EP, HI; left; auto].
    rewrite (sub_row_lrow v D q). 2:{ intros j Hj. apply HV. specialize (HA (nth x A nil)). rewrite Forall_forall in HA. apply HA; auto. apply nth_In. lia. }
    cbn [obind]. rewrite IH; auto. intros y Hy. apply HI. right. auto.
  Qed.
  Lemma copySubset_local n m N A D : bmat_wf N N A -> domain_wf N D -> copySubset t0 n m (length D * m) A D = build_ccs t0 n m (length D * m) (length (local D (visits A))) (local D (visits A)).
  Proof.
    intros [LA HW] HD. pose proof HD as [HS HF]. unfold copySubset. destruct (fill_index_spec D 0 (repeat None (length A)) (ssorted_NoDup D HS)) as (v & E & L & V1 & V2); [rewrite repeat_length, LA; auto|]. rewrite E. cbn [obind]. rewrite repeat_length in L.
    assert (HV : forall j, j < N -> nth_error v j = Some (pos D j)).
    { intros j Hj. destruct (pos D j) as [k|] eqn:EP.
      - apply pos_some in EP. destruct EP as [H1 H2]. rewrite (V1 k j); auto. rewrite <- H2. apply nth_error_nth'. auto.
      - rewrite V2 by (apply pos_none; auto). rewrite (nth_error_nth' _ None) by (rewrite repeat_length; lia). now rewrite nth_repeat. }
    rewrite (sub_visits_local N A v D); auto.
    - cbn [obind]. rewrite (local_visits N D A); auto.
    - rewrite Forall_forall in HW. intros row Hr. apply HW. auto.
  Qed.

  (** the first pass *)
  Lemma skip_In s j : StronglySorted lt s -> StronglySorted lt (skip s j) /\ (forall x, j <= x -> inb x (skip s j) = inb x s) /\ match skip s j with x :: _ => j <= x | nil => True end.
  Proof.
    induction s as [|x s IH]; intros HS; cbn [skip]; [auto|]. destruct (Nat.ltb_spec x j); [|auto]. apply StronglySorted_inv in HS. destruct HS as [HS _]. destruct (IH HS) as (I1 & I2 & I3). split; auto. split; auto.
    intros y Hy. rewrite I2 by auto. unfold inb. cbn [existsb]. destruct (Nat.eqb_spec y x); [lia|auto].
  Qed.
  Lemma count_set_filter {X} (row : list (nat * X)) : forall s, StronglySorted lt (map fst row) -> StronglySorted lt s -> count_set row s = length (filter (fun e => inb (fst e) s) row).
  Proof.
    induction row as [|[j x] row IH]; intros s HR HS; cbn [count_set filter]; auto. cbn [map fst] in *. apply StronglySorted_inv in HR. destruct HR as [HR HL]. destruct (skip_In s j HS) as (K1 & K2 & K3).
    rewrite <- (K2 j) by auto. assert (FE : filter (fun e => inb (fst e) s) row = filter (fun e => inb (fst e) (skip s j)) row).
    { apply filter_ext_in. intros e He. symmetry. apply K2. rewrite Forall_forall in HL. specialize (HL (fst e) (in_map _ _ _ He)). lia. }
    rewrite FE. clear FE K2. destruct (skip s j) as [|y t].
    - cbn [inb existsb]. clear. induction row; auto.
    - rewrite IH by auto. cbn [inb existsb]. rewrite (Nat.eqb_sym j y). destruct (Nat.eqb_spec y j) as [->|]; cbn [orb].
      + reflexivity.
      + replace (existsb (Nat.eqb j) t) with false; [reflexivity|]. symmetry. apply not_true_iff_false. rewrite existsb_In. intros H. apply StronglySorted_inv in K1. destruct K1 as [_ K1]. rewrite Forall_forall in K1. specialize (K1 j H). lia.
  Qed.
  Lemma lrow_length D q row : length (lrow D q row) = length (filter (fun e => inb (fst e) D) row).
  Proof. unfold lrow. induction row as [|[c b] row IH]; cbn [flat_map filter fst snd]; auto. rewrite app_length, IH, pos_inb. destruct (pos D c); cbn [length]; lia. Qed.
  Lemma mfind_app m1 g v x : mfind (m1 ++ [(g, v)]) x = match mfind m1 x with Some k => Some k | None => if g =? x then Some v else None end.
  Proof. unfold mfind. induction m1 as [|[a b] m1 IH]; cbn [app find fst snd]; [destruct (g =? x); auto|]. destruct (a =? x); auto. Qed.
  (** after the rows below k: the map numbers the rows of the subdomain among them *)
  Definition seen (D : list nat) (k : nat) : list nat := filter (fun x => x <? k) D.
  Lemma seen_S D k : StronglySorted lt D -> seen D (S k) = seen D k ++ (if inb k D then [k] else nil).
  Proof.
    unfold seen. induction D as [|x D IH]; intros HS; cbn [filter]; auto. inversion HS as [|? ? HS' HL]; subst. rewrite Forall_forall in HL. rewrite IH by auto. unfold inb. cbn [existsb].
    destruct (Nat.ltb_spec x (S k)), (Nat.ltb_spec x k), (Nat.eqb_spec k x); try lia; cbn [orb app]; auto.
    - subst x. replace (filter (fun x => x <? k) D) with (@nil nat); [replace (existsb (Nat.eqb k) D) with false; auto|].
      + symmetry. apply not_true_iff_false. rewrite existsb_In. intros H1. specialize (HL k H1). lia.
      + symmetry. clear - HL. induction D as [|y D IHD]; cbn [filter]; auto. destruct (Nat.ltb_spec y k); [|apply IHD; intros z Hz; apply HL; right; auto]. specialize (HL y (or_introl eq_refl)). lia.
  Qed.
  Lemma pos_seen D k : StronglySorted lt D -> In k D -> pos D k = Some (length (seen D k)).
  Proof.
    unfold seen. induction D as [|x D IH]; intros HS HI; [destruct HI|]. inversion HS as [|? ? HS' HL]; subst. rewrite Forall_forall in HL. cbn [pos filter]. destruct (Nat.eqb_spec x k) as [->|NE].
    - rewrite Nat.ltb_irrefl. replace (filter (fun x => x <? k) D) with (@nil nat); auto. clear - HL. induction D as [|y D IHD]; cbn [filter]; auto. destruct (Nat.ltb_spec y k); [specialize (HL y (or_introl eq_refl)); lia|apply IHD; intros z Hz; apply HL; right; auto].
    - destruct HI as [|HI]; [congruence|]. rewrite IH by auto. specialize (HL k HI). destruct (Nat.ltb_spec x k); [reflexivity|lia].
  Qed.
  Lemma walk_ex {I X} (indices : list (list nat)) (row : I -> nat) (f : I -> nat -> X -> outcome X) s0 items (l : list X) (P : nat -> X -> Prop) :
    Forall (fun i => row i < length indices /\ NoDup (nth (row i) indices nil) /\ Forall (fun d => d < length l) (nth (row i) indices nil)) items ->
    (forall d, d < length l -> exists s', solo indices row f items d (nth d l s0) = Ok s' /\ P d s') ->
    exists l', walk indices row f items l = Ok l' /\ length l' = length l /\ forall d, d < length l -> P d (nth d l' s0).
  Proof.
    intros HF HS. destruct (walk_ok indices row f s0 items l (fun d => match solo indices row f items d (nth d l s0) with Ok s' => s' | _ => s0 end) HF) as (l' & E & L & V).
    - intros d Hd. destruct (HS d Hd) as (s' & -> & _). auto.
    - exists l'. split; auto. split; auto. intros d Hd. rewrite V by auto. destruct (HS d Hd) as (s' & -> & H). auto.
  Qed.
  Lemma solo_rows indices domains d D : nth d domains nil = D -> StronglySorted lt D -> forall A k z mp nx,
    (forall r, k <= r < k + length A -> existsb (Nat.eqb d) (nth r indices nil) = inb r D) -> Forall (fun row : list (nat * @blk T) => StronglySorted lt (map fst row)) A ->
    nx = length (seen D k) -> (forall x, mfind mp x = if x <? k then pos D x else None) ->
    exists mp', solo indices fst (addRow domains) (combine (seq k (length A)) A) d (FP z mp nx) = Ok (FP (z + length (flat_map (fun r => match pos D r with Some q => lrow D q (nth (r - k) A nil) | None => nil end) (seq k (length A)))) mp' (length (seen D (k + length A)))) /\
      forall x, mfind mp' x = if x <? k + length A then pos D x else None.
  Proof.
    intros HD HS. induction A as [|row A IH]; intros k z mp nx HI HW HN HM; cbn [length seq combine solo flat_map].
    - exists mp. subst nx. rewrite !Nat.add_0_r. auto.
    - cbn [fst]. rewrite (HI k) by (cbn [length]; lia). apply Forall_cons_iff in HW. destruct HW as [HR HW]. rewrite Nat.sub_diag. change (nth 0 (row :: A) nil) with row.
      assert (HI' : forall r, S k <= r < S k + length A -> existsb (Nat.eqb d) (nth r indices nil) = inb r D) by (intros r Hr; apply HI; cbn [length]; lia).
      assert (FE : flat_map (fun r => match pos D r with Some q => lrow D q (nth (r - k) (row :: A) nil) | None => nil end) (seq (S k) (length A)) = flat_map (fun r => match pos D r with Some q => lrow D q (nth (r - S k) A nil) | None => nil end) (seq (S k) (length A))).
      { rewrite !flat_map_concat_map. f_equal. apply map_ext_in. intros r Hr. apply in_seq in Hr. replace (r - k) with (S (r - S k)) by lia. reflexivity. }
      rewrite FE. pose proof (pos_inb D k) as PI. pose proof (seen_S D k HS) as SS. rewrite app_length. destruct (inb k D) eqn:IK.
      + unfold addRow at 1. cbn [fst snd nnz imap next obind]. rewrite HD. assert (HK : In k D) by (apply existsb_In; auto). pose proof (pos_seen D k HS HK) as PS. rewrite PS in *.
        destruct (IH (S k) (z + count_set row D) (minsert mp k nx) (S nx)) as (mp' & E & M); auto.
        * rewrite SS, app_length, HN. cbn [length]. lia.
        * intros x. unfold minsert. rewrite HM, Nat.ltb_irrefl. rewrite mfind_app, HM. destruct (Nat.ltb_spec x k), (Nat.ltb_spec x (S k)); try lia.
          -- destruct (pos D x) as [y|] eqn:PX; auto. destruct (Nat.eqb_spec k x); [lia|auto].
          -- replace x with k by lia. rewrite Nat.eqb_refl, PS, HN. auto.
          -- destruct (Nat.eqb_spec k x); [lia|auto].
        * exists mp'. rewrite E, count_set_filter, lrow_length by auto. replace (k + S (length A)) with (S k + length A) by lia. rewrite Nat.add_assoc. split; auto.
      + destruct (pos D k) as [q|] eqn:PK; [discriminate|]. destruct (IH (S k) z mp nx) as (mp' & E & M); auto.
        * rewrite SS, app_nil_r. auto.
        * intros x. rewrite HM. destruct (Nat.ltb_spec x k), (Nat.ltb_spec x (S k)); try lia; auto. replace x with k by lia. auto.
        * exists mp'. rewrite E. replace (k + S (length A)) with (S k + length A) by lia. split; auto.
  Qed.
  Lemma solo_count n m indices maps d D N : (forall x, x < N -> mfind (nth d maps nil) x = pos D x) -> (forall r, r < N -> existsb (Nat.eqb d) (nth r indices nil) = inb r D) ->
    forall vs mk, (forall r c b, In (r, c, b) vs -> r < N /\ c < N) -> solo indices (fun v => fst (fst v)) (countEntry n m maps) vs d mk = count_all n m (local D vs) mk.
  Proof.
    intros HM HI. induction vs as [|[[r c] b] vs IH]; intros mk HV; cbn [solo]; auto. destruct (HV r c b (or_introl eq_refl)) as [Hr Hc]. cbn [fst]. rewrite HI, pos_inb by auto. assert (HV' : forall r c b, In (r, c, b) vs -> r < N /\ c < N) by (intros; eapply HV; right; eauto).
    change (local D ((r, c, b) :: vs)) with ((match pos D r, pos D c with Some q, Some k => [(q, k, b)] | _, _ => nil end) ++ local D vs). destruct (pos D r) as [q|] eqn:PR.
    - unfold countEntry at 1. rewrite HM by auto. destruct (pos D c) as [k|]; cbn [app obind count_all]; auto. destruct (count_from n m k 0 m mk); cbn [obind]; auto.
    - cbn [app]. auto.
  Qed.
  Lemma solo_copy n m indices maps d D N : (forall x, x < N -> mfind (nth d maps nil) x = pos D x) -> (forall r, r < N -> existsb (Nat.eqb d) (nth r indices nil) = inb r D) ->
    forall vs s, (forall r c b, In (r, c, b) vs -> r < N /\ c < N) -> solo indices (fun v => fst (fst v)) (copyEntry n m maps) vs d s = copy_all n m (local D vs) s.
  Proof.
    intros HM HI. induction vs as [|[[r c] b] vs IH]; intros s HV; cbn [solo]; auto. destruct (HV r c b (or_introl eq_refl)) as [Hr Hc]. cbn [fst]. rewrite HI, pos_inb by auto. assert (HV' : forall r c b, In (r, c, b) vs -> r < N /\ c < N) by (intros; eapply HV; right; eauto).
    change (local D ((r, c, b) :: vs)) with ((match pos D r, pos D c with Some q, Some k => [(q, k, b)] | _, _ => nil end) ++ local D vs). destruct (pos D r) as [q|] eqn:PR.
    - unfold copyEntry at 1. rewrite !HM, PR by auto. destruct (pos D c) as [k|]; cbn [app obind copy_all]; auto. destruct (copy_rows n m q k b 0 n s); cbn [obind]; auto.
    - cbn [app]. auto.
  Qed.
  Lemma visits_bounds N (A : @bmat T) : bmat_wf N N A -> forall r c b, In (r, c, b) (visits A) -> r < N /\ c < N.
  Proof.
    intros [LA HW] r c b H. destruct (visits_gen A 0) as (_ & M & _); [eapply Forall_impl; [|exact HW]; cbn; tauto|]. apply M in H. rewrite Nat.sub_0_r in H. destruct H as [H1 H2]. rewrite Forall_forall in HW.
    destruct (HW (nth r A nil)) as [_ W]; [apply nth_In; lia|]. rewrite Forall_forall in W. split; [lia|]. apply W. apply in_map_iff. exists (c, b). auto.
  Qed.
  (** Each local matrix is what copying the block rows and columns of its subdomain alone gives (C23). *)
  Theorem C82_assemble n m N (A : @bmat T) indices domains : 0 < m -> bmat_wf N N A -> consistent N indices domains ->
    exists outs, assemble_local n m A indices domains = Ok outs /\ length outs = length domains /\
      forall d, d < length domains -> let D := nth d domains nil in copySubset t0 n m (length D * m) A D = Ok (nth d outs (mkccs nil nil nil)) /\
        is_ccs n m (length D * m) (fun r c b => exists x y, nth_error D r = Some x /\ nth_error D c = Some y /\ In (y, b) (nth x A nil)) (nth d outs (mkccs nil nil nil)).
  Proof.
    intros Hm HA (LI & HD & HC). pose proof HA as [LA HW].
    assert (HDd : forall d, d < length domains -> domain_wf N (nth d domains nil)) by (intros d Hd; rewrite Forall_forall in HD; apply HD, nth_In; auto).
    assert (HI : forall d, d < length domains -> forall r, r < N -> existsb (Nat.eqb d) (nth r indices nil) = inb r (nth d domains nil)).
    { intros d Hd r Hr. destruct (HC r Hr) as [_ H]. specialize (H d). unfold inb. apply eq_true_iff_eq. rewrite !existsb_In, H. intuition. }
    assert (FN : forall X I (l : list X) (row : I -> nat) items, length l = length domains -> (forall i, In i items -> row i < N) -> Forall (fun i => row i < length indices /\ NoDup (nth (row i) indices nil) /\ Forall (fun d => d < length l) (nth (row i) indices nil)) items).
    { intros X I l row items LL H. rewrite Forall_forall. intros i Hi. specialize (H i Hi). destruct (HC (row i) H) as [H1 H2]. split; [lia|]. split; auto. rewrite Forall_forall. intros d Hd. apply H2 in Hd. lia. }
    pose proof (visits_bounds N A HA) as VB.
    set (vs := fun d => local (nth d domains nil) (visits A)).
    unfold assemble_local.
    (* first pass *)
    destruct (walk_ex indices fst (addRow domains) (FP 0 nil 0) (combine (seq 0 (length A)) A) (map (fun _ => FP 0 nil 0) domains) (fun d s => nnz s = length (vs d) /\ forall x, x < N -> mfind (imap s) x = pos (nth d domains nil) x)) as (fps & E1 & L1 & V1).
    { apply FN; [apply map_length|]. intros [r row] H. cbn. apply in_combine_l, in_seq in H. lia. }
    { intros d Hd. rewrite map_length in Hd. replace (nth d (map (fun _ => FP 0 nil 0) domains) (FP 0 nil 0)) with (FP 0 nil 0) by (symmetry; apply (map_nth (fun _ => FP 0 nil 0) domains nil d)).
      destruct (solo_rows indices domains d _ eq_refl (proj1 (HDd d Hd)) A 0 0 nil 0) as (mp & E & M).
      - intros r Hr. apply HI; auto. lia.
      - eapply Forall_impl; [|exact HW]. cbn. tauto.
      - unfold seen. clear. induction (nth d domains nil); auto.
      - intros x. cbn. auto.
      - eexists. split; [exact E|]. cbn [nnz imap]. split.
        + unfold vs. unfold visits. rewrite local_visits_gen. reflexivity.
        + intros x Hx. rewrite M. destruct (Nat.ltb_spec x (0 + length A)); [auto|lia]. }
    rewrite E1. cbn [obind]. rewrite map_length in L1, V1.
    assert (MP : forall d, d < length domains -> forall x, x < N -> mfind (nth d (map imap fps) nil) x = pos (nth d domains nil) x).
    { intros d Hd x Hx. change (@nil (nat * nat)) with (imap (FP 0 nil 0)) at 1. rewrite map_nth. apply V1; auto. }
    (* the result of copying one subset *)
    assert (ONE : forall d, d < length domains -> exists marker s, count_all n m (vs d) (repeat 0 (length (nth d domains nil) * m)) = Ok marker /\
      copy_all n m (vs d) (snd (calcColstart 0 marker), repeat 0 (length (vs d) * (n * m)), repeat t0 (length (vs d) * (n * m))) = Ok s /\
      copySubset t0 n m (length (nth d domains nil) * m) A (nth d domains nil) = Ok (mkccs (fst (calcColstart 0 marker)) (snd (fst s)) (snd s))).
    { intros d Hd. destruct (HDd d Hd) as [HS HF]. destruct (C23_copySubset t0 n m N A _ Hm HA HS HF) as (out & E & _). rewrite (copySubset_local n m N A _ HA (HDd d Hd)) in *. fold (vs d) in *. unfold build_ccs in *.
      destruct (count_all n m (vs d) (repeat 0 (length (nth d domains nil) * m))) as [marker| |]; try discriminate. cbn [obind] in *. exists marker. destruct (calcColstart 0 marker) as [cs mk]. cbn [fst snd] in *.
      destruct (copy_all n m (vs d) (mk, repeat 0 (length (vs d) * (n * m)), repeat t0 (length (vs d) * (n * m)))) as [[[mk' ri] va]| |]; try discriminate. exists (mk', ri, va). auto. }
    (* second pass *)
    destruct (walk_ex indices (fun v => fst (fst v)) (countEntry n m (map imap fps)) nil (visits A) (map (fun D => repeat 0 (length D * m)) domains) (fun d mk => count_all n m (vs d) (repeat 0 (length (nth d domains nil) * m)) = Ok mk)) as (markers & E2 & L2 & V2).
    { apply FN; [apply map_length|]. intros [[r c] b] H. apply VB in H. cbn. apply H. }
    { intros d Hd. rewrite map_length in Hd. rewrite (nth_indep _ _ ((fun D => repeat 0 (length D * m)) (@nil nat))) by (rewrite map_length; auto). rewrite (map_nth (fun D => repeat 0 (length D * m))).
      rewrite (solo_count n m indices _ d (nth d domains nil) N) by auto. fold (vs d). destruct (ONE d Hd) as (marker & s & H & _). rewrite H. eauto. }
    rewrite E2. cbn [obind]. rewrite map_length in L2, V2.
    (* third pass *)
    set (starts := map (calcColstart 0) markers). assert (LS : length starts = length domains) by (unfold starts; rewrite map_length; auto).
    assert (NS : forall d, d < length domains -> forall x, nth d starts x = calcColstart 0 (nth d markers nil)).
    { intros d Hd x. unfold starts. rewrite (nth_indep _ _ (calcColstart 0 nil)) by (rewrite map_length; lia). apply map_nth. }
    set (init := map _ (combine fps starts)). assert (LC : length init = length domains) by (unfold init; rewrite map_length, combine_length; lia).
    destruct (walk_ex indices (fun v => fst (fst v)) (copyEntry n m (map imap fps)) (nil, nil, nil) (visits A) init
      (fun d s => copy_all n m (vs d) (snd (calcColstart 0 (nth d markers nil)), repeat 0 (length (vs d) * (n * m)), repeat t0 (length (vs d) * (n * m))) = Ok s)) as (outs & E3 & L3 & V3).
    { apply FN; [exact LC|]. intros [[r c] b] H. apply VB in H. cbn. apply H. }
    { intros d Hd. rewrite LC in Hd. rewrite (solo_copy n m indices _ d (nth d domains nil) N) by auto. fold (vs d).
      assert (IE : nth d init (nil, nil, nil) = (snd (calcColstart 0 (nth d markers nil)), repeat 0 (length (vs d) * (n * m)), repeat t0 (length (vs d) * (n * m)))).
      { unfold init. match goal with |- nth d (map ?f _) _ = _ => rewrite (nth_indep _ _ (f (FP 0 nil 0, (nil, nil)))) by (rewrite map_length, combine_length; lia); rewrite (map_nth f) end. rewrite combine_nth by lia. cbn [fst snd]. rewrite NS by auto. destruct (V1 d Hd) as [-> _]. reflexivity. }
      rewrite IE. destruct (ONE d Hd) as (marker & s & H1 & H2 & _). rewrite V2 in H1 by auto. injection H1 as <-. rewrite H2. eauto. }
    rewrite E3. cbn [obind]. rewrite LC in L3, V3. eexists. split; [reflexivity|]. split; [rewrite map_length, combine_length; lia|].
    intros d Hd. cbv zeta. match goal with |- context [nth d (map ?f ?l) ?x] => assert (RE : nth d (map f l) x = f (nth d starts (nil, nil), nth d outs (nil, nil, nil))) end.
    { match goal with |- nth d (map ?f _) _ = _ => rewrite (nth_indep _ _ (f ((nil, nil), (nil, nil, nil)))) by (rewrite map_length, combine_length; lia); rewrite (map_nth f) end. rewrite combine_nth by lia. reflexivity. }
    rewrite RE. clear RE. cbn [fst snd]. rewrite NS by auto. destruct (ONE d Hd) as (marker & s & H1 & H2 & H3). rewrite V2 in H1 by auto. injection H1 as <-. rewrite V3 in H2 by auto. injection H2 as <-. split; auto.
    destruct (HDd d Hd) as [HS HF]. destruct (C23_copySubset t0 n m N A _ Hm HA HS HF) as (out & E & I). rewrite H3 in E. injection E as <-. exact I.
  Qed.

  (** the two constructors *)
  Lemma push_rows_ok id : forall D rtd, NoDup D -> Forall (fun r => r < length rtd) D ->
    exists rtd', push_rows id D rtd = Ok rtd' /\ length rtd' = length rtd /\ forall r, nth r rtd' nil = nth r rtd nil ++ (if inb r D then [id] else nil).
  Proof.
    induction D as [|x D IH]; intros rtd ND HF; cbn [push_rows].
    - exists rtd. split; auto. split; auto. intros r. cbn. now rewrite app_nil_r.
    - apply NoDup_cons_iff in ND. destruct ND as [NI ND]. apply Forall_cons_iff in HF. destruct HF as [HX HF]. rewrite (nth_error_nth' rtd nil HX).
      destruct (IH (upd rtd x (nth x rtd nil ++ [id])) ND) as (rtd' & E & L & V); [rewrite upd_length; auto|]. exists rtd'. rewrite upd_length in L. split; auto. split; auto. intros r. rewrite V, nth_upd. unfold inb. cbn [existsb].
      destruct (Nat.eqb_spec x r) as [->|NE].
      + rewrite Nat.eqb_refl. destruct (Nat.ltb_spec r (length rtd)); [|lia]. cbn [orb]. replace (existsb (Nat.eqb r) D) with false; [now rewrite app_nil_r|]. symmetry. apply not_true_iff_false. now rewrite existsb_In.
      + destruct (Nat.eqb_spec r x); [congruence|]. reflexivity.
  Qed.
  Lemma push_domains_ok N : forall sd id rtd, Forall (domain_wf N) sd -> length rtd = N ->
    exists rtd', push_domains id sd rtd = Ok rtd' /\ length rtd' = N /\ forall r, nth r rtd' nil = nth r rtd nil ++ filter (fun d => inb r (nth (d - id) sd nil)) (seq id (length sd)).
  Proof.
    induction sd as [|D0 sd IH]; intros id rtd HF HL; cbn [push_domains].
    - exists rtd. split; auto. split; auto. intros r. cbn. now rewrite app_nil_r.
    - apply Forall_cons_iff in HF. destruct HF as [[HS HB] HF]. destruct (push_rows_ok id D0 rtd (ssorted_NoDup _ HS)) as (rtd1 & E1 & L1 & V1); [rewrite HL; auto|]. rewrite E1. cbn [obind].
      destruct (IH (S id) rtd1 HF ltac:(lia)) as (rtd' & E & L & V). exists rtd'. split; auto. split; auto. intros r. rewrite V, V1, <- app_assoc. f_equal. cbn [length seq filter]. rewrite Nat.sub_diag. cbn [nth].
      assert (FE : filter (fun d => inb r (nth (d - S id) sd nil)) (seq (S id) (length sd)) = filter (fun d => inb r (nth (d - id) (D0 :: sd) nil)) (seq (S id) (length sd))).
      { apply filter_ext_in. intros d Hd. apply in_seq in Hd. replace (d - id) with (S (d - S id)) by lia. reflexivity. }
      rewrite FE. destruct (inb r D0); reflexivity.
  Qed.
  (** Both constructors hand a consistent pair of lists to the assembly: from subdomains (sorted sets of rows of the matrix), *)
  Theorem C82_from_domains N sd : Forall (domain_wf N) sd -> exists rtd, push_domains 0 sd (repeat nil N) = Ok rtd /\ consistent N rtd sd.
  Proof.
    intros HF. destruct (push_domains_ok N sd 0 (repeat nil N) HF (repeat_length _ _)) as (rtd & E & L & V). exists rtd. split; auto. split; auto. split; auto. intros r Hr. rewrite V, nth_repeat. cbn [app]. split.
    - apply NoDup_filter, seq_NoDup.
    - intros d. rewrite filter_In, in_seq, Nat.sub_0_r. unfold inb. rewrite existsb_In. intuition lia.
  Qed.
  (** and from one list of subdomains per row, if no row lists a subdomain twice. *)
  Theorem C82_from_rows N rtd : length rtd = N -> Forall (@NoDup nat) rtd -> consistent N rtd (domains_of_rows rtd).
  Proof.
    intros HL HN. destruct (C55_rows_to_domains N rtd HL) as (H1 & H2 & H3). split; auto. split; auto. intros r Hr. split; [rewrite Forall_forall in HN; apply HN, nth_In; lia|]. intros d. split.
    - intros H. split; [eapply H1; eauto|]. apply H2; auto. eapply H1; eauto.
    - intros [Hd H]. apply H2; auto.
  Qed.
  Theorem C82_constructors n m N (A : @bmat T) : 0 < m -> bmat_wf N N A ->
    (forall sd, Forall (domain_wf N) sd -> exists outs, assemble_domains n m A sd = Ok outs /\ length outs = length sd /\
      forall d, d < length sd -> copySubset t0 n m (length (nth d sd nil) * m) A (nth d sd nil) = Ok (nth d outs (mkccs nil nil nil))) /\
    (forall rtd, length rtd = N -> Forall (@NoDup nat) rtd -> exists outs, assemble_rows n m A rtd = Ok outs /\ length outs = length (domains_of_rows rtd) /\
      forall d, d < length (domains_of_rows rtd) -> copySubset t0 n m (length (nth d (domains_of_rows rtd) nil) * m) A (nth d (domains_of_rows rtd) nil) = Ok (nth d outs (mkccs nil nil nil))).
  Proof.
    intros Hm HA. split.
    - intros sd HF. destruct (C82_from_domains N sd HF) as (rtd & E & C). unfold assemble_domains. rewrite (proj1 HA), E. cbn [obind]. destruct (C82_assemble n m N A rtd sd Hm HA C) as (outs & E2 & L & H). exists outs. split; auto. split; auto. intros d Hd. apply (H d Hd).
    - intros rtd HL HN. unfold assemble_rows. destruct (C82_assemble n m N A rtd _ Hm HA (C82_from_rows N rtd HL HN)) as (outs & E2 & L & H). exists outs. split; auto. split; auto. intros d Hd. apply (H d Hd).
  Qed.
  (** Deviation: the lengths of the lists are not checked, with fewer row lists than rows the end of the vector is passed *)
  Theorem C82_short_refuted n m (A : @bmat T) rtd : length rtd < length A -> assemble_rows n m A rtd = UB.
  Proof.
    intros HL. unfold assemble_rows, assemble_local. match goal with |- obind (walk _ _ ?f ?items ?l) _ = _ => assert (W : walk rtd fst f items l = UB) end; [|rewrite W; reflexivity].
    assert (G : forall items (l : list first_pass), (exists i, In i items /\ length rtd <= fst i) -> walk rtd fst (addRow (domains_of_rows rtd)) items l = UB).
    { assert (EA : forall i ds l, each (addRow (domains_of_rows rtd) i) ds l = UB \/ exists l', each (addRow (domains_of_rows rtd) i) ds l = Ok l').
      { intros i. induction ds as [|d ds IHd]; intros l; cbn [each]; [eauto|]. destruct (nth_error l d); [apply IHd|auto]. }
      induction items as [|i items IH]; intros l (j & HI & HJ); [destruct HI|]. cbn [walk]. destruct (nth_error rtd (fst i)) as [ds|] eqn:EN; auto. destruct HI as [->|HI].
      - apply nth_error_None in HJ. congruence.
      - destruct (EA i ds l) as [->|(l' & ->)]; auto. cbn [obind]. apply IH. exists j. auto. }
    apply G. exists (length rtd, nth (length rtd) A nil). split; [|auto]. replace (length rtd, nth (length rtd) A nil) with (nth (length rtd) (combine (seq 0 (length A)) A) (0, nil)) by (rewrite combine_nth by (rewrite seq_length; auto); rewrite seq_nth by auto; reflexivity). apply nth_In. rewrite combine_length, seq_length. lia.
  Qed.
End Assemble.

Section Objects.
  Context {R : ring}.
  Context {F : Type} (lib : @library R F).

  Fixpoint traverse {X Y} (f : X -> outcome Y) (l : list X) : outcome (list Y) := match l with nil => Ok nil | x :: t => obind (f x) (fun y => obind (traverse f t) (fun ys => Ok (y :: ys))) end.
  (** assembleLocalProblems with stored solvers, overlappingschwarz.hh:1158-1190: N_ and M_ of every new solver, the arrays, createMatrix for every solver (overlappingschwarz.hh:946-952), decompose() for every
      solver; the second result is maxlength.  bs: rows and columns of a block, which must be equal *)
  Definition local_problems (bs : nat) (A : @bmat R) (indices domains : list (list nat)) : outcome (list (@state R F) * nat) :=
    obind (assemble_local r0 bs bs A indices domains) (fun outs =>
    obind (traverse (fun p => install (start None) (length (fst p) * bs) (length (fst p) * bs) (length (fst p) * bs) (snd p)) (combine domains outs)) (fun sts =>
    obind (traverse (decompose lib) sts) (fun sts => Ok (sts, fold_left (fun k st => Nat.max k (mN st)) sts 0)))).

  Lemma traverse_obind {X Y Z} (f : X -> outcome Y) (g : Y -> outcome Z) (h : X -> Z) : forall l, (forall x, In x l -> obind (f x) g = Ok (h x)) -> exists ys, traverse f l = Ok ys /\ traverse g ys = Ok (map h l).
  Proof.
    induction l as [|x l IH]; intros H; [exists nil; auto|]. destruct (IH (fun y Hy => H y (or_intror Hy))) as (ys & E1 & E2). specialize (H x (or_introl eq_refl)). destruct (f x) as [y| |] eqn:EF; try discriminate. cbn [obind] in H.
    exists (y :: ys). cbn [traverse map]. rewrite EF, E1, H, E2. auto.
  Qed.
  Definition dummy : @state R F := start None.
  (** Every solver of the assembled list is what setSubMatrix makes of a new solver: it solves the systems of the block rows and columns of its subdomain (C79), its destructor releases everything,
      and the arrays of the preconditioner are as long as the largest of these systems. *)
  Theorem C82_superlu bs N (A : @bmat R) indices domains : roomy lib -> 0 < bs -> bmat_wf N N A -> consistent N indices domains ->
    exists sts maxlength, local_problems bs A indices domains = Ok (sts, maxlength) /\ length sts = length domains /\ maxlength = fold_right Nat.max 0 (map (fun D => length D * bs) domains) /\
      forall d, d < length domains -> let D := nth d domains nil in let st := nth d sts dummy in
        applies lib (system (length D * bs) (subblocks bs A D)) st /\ destroy st = Ok (if length D =? 0 then 11 else 0) /\ (nth 0 A nil <> nil -> setSubMatrix lib (start None) bs bs A D = Ok st).
  Proof.
    intros RM Hb HA HC. destruct (C82_assemble r0 bs bs N A indices domains Hb HA HC) as (outs & E & L & H). unfold local_problems. rewrite E. cbn [obind].
    destruct HC as (_ & HD & _). rewrite Forall_forall in HD.
    assert (ONE : forall d, d < length domains -> exists st, let D := nth d domains nil in obind (install (start None) (length D * bs) (length D * bs) (length D * bs) (nth d outs (mkccs nil nil nil))) (decompose lib) = Ok st /\ holds lib (system (length D * bs) (subblocks bs A D)) 0 st /\ (nth 0 A nil <> nil -> setSubMatrix lib (start None) bs bs A D = Ok st)).
    { intros d Hd. destruct (HD (nth d domains nil) (nth_In _ _ Hd)) as [HS HF]. destruct (H d Hd) as [EC _]. destruct (copySubset_entry bs N A _ Hb HA HS HF) as (out & E3 & LG & LV & EN). rewrite EC in E3. injection E3 as E3. rewrite E3 in *.
      destruct (decompose_ok lib (start None) Nothing 0 (length (nth d domains nil) * bs) (subblocks bs A (nth d domains nil)) out RM (start_holds lib None) (or_introl eq_refl) LG LV EN) as (st & ES & HH). cbn [held Nat.add] in HH. exists st. cbv zeta. split; [auto|]. split; [auto|].
      intros NE. unfold setSubMatrix. cbn [release start mN mM Nat.add Nat.ltb Nat.leb obind mat_release mNnz Nat.eqb]. destruct A as [|[|e row] A']; [cbn in NE; congruence|cbn in NE; congruence|]. rewrite EC. cbn [obind]. exact ES. }
    set (mk := fun p : list nat * @ccs R => match obind (install (start None) (length (fst p) * bs) (length (fst p) * bs) (length (fst p) * bs) (snd p)) (decompose lib) with Ok st => st | _ => dummy end).
    assert (LC : length (combine domains outs) = length domains) by (rewrite combine_length; lia).
    destruct (traverse_obind (fun p => install (start None) (length (fst p) * bs) (length (fst p) * bs) (length (fst p) * bs) (snd p)) (decompose lib) mk (combine domains outs)) as (ys & E1 & E2).
    { intros p Hp. apply In_nth with (d := (nil, mkccs nil nil nil)) in Hp. destruct Hp as (d & Hd & <-). rewrite LC in Hd. rewrite combine_nth by auto. cbn [fst snd]. destruct (ONE d Hd) as (st & ES & _). unfold mk. cbn [fst snd]. cbv zeta in ES. rewrite ES. auto. }
    rewrite E1. cbn [obind]. rewrite E2. cbn [obind]. eexists. eexists. split; [reflexivity|]. split; [rewrite map_length; auto|].
    assert (NT : forall d, d < length domains -> nth d (map mk (combine domains outs)) dummy = mk (nth d domains nil, nth d outs (mkccs nil nil nil))).
    { intros d Hd. rewrite (nth_indep _ _ (mk (nil, mkccs nil nil nil))) by (rewrite map_length; lia). rewrite map_nth, combine_nth by auto. reflexivity. }
    assert (HS : forall d, d < length domains -> let D := nth d domains nil in let st := nth d (map mk (combine domains outs)) dummy in holds lib (system (length D * bs) (subblocks bs A D)) 0 st /\ (nth 0 A nil <> nil -> setSubMatrix lib (start None) bs bs A D = Ok st)).
    { intros d Hd. cbv zeta. rewrite NT by auto. destruct (ONE d Hd) as (st & ES & HH). cbv zeta in ES. unfold mk. cbn [fst snd]. rewrite ES. exact HH. }
    split.
    - assert (MN : map mN (map mk (combine domains outs)) = map (fun D => length D * bs) domains).
      { apply nth_ext with (d := mN dummy) (d' := (fun D => length D * bs) (@nil nat)); [rewrite !map_length; auto|]. intros d Hd. rewrite !map_length, LC in Hd. rewrite !map_nth. destruct (HS d Hd) as [HH _]. cbv zeta in HH. rewrite (map_nth (fun D => length D * bs)).
        destruct (length (nth d domains nil) * bs) as [|k]; cbn [system] in HH; [apply HH|]. destruct HH as (_ & _ & HN & _). auto. }
      rewrite <- MN. clear. generalize (map mk (combine domains outs)) as l. intros l. assert (G : forall m, fold_left (fun k st => Nat.max k (mN st)) l m = Nat.max m (fold_right Nat.max 0 (map mN l))) by (induction l as [|st l IH]; intros m; cbn [fold_left map fold_right]; [lia|]; rewrite IH; lia). rewrite G. lia.
    - intros d Hd. destruct (HS d Hd) as [HH HT]. cbv zeta in *. split; [eapply holds_applies; eauto|]. split; auto. rewrite (destroy_ok lib _ _ _ HH). destruct (length (nth d domains nil)) as [|k] eqn:EL; cbn [Nat.mul system held Nat.eqb Nat.add]; auto.
      destruct (S k * bs) as [|q] eqn:EQ; [nia|]. cbn in EQ. rewrite EQ. reflexivity.
  Qed.

  (** ** The preconditioner with scalar blocks *)
  Notation smat := (smat R).
  Notation vec := (list R).
  (** the matrix as a matrix of 1 x 1 blocks *)
  Definition unit_blocks (A : smat) : @bmat R := map (map (fun e => (fst e, fun _ _ : nat => snd e))) A.
  (** SuperLU as subdomain solver of SeqOverlappingSchwarz.  set_sub: setSubMatrix on a new object, overlappingschwarz.hh:1254-1258, and (C82_superlu) what assembleLocalProblems leaves; apply on the plain arrays
      lhs() and rhs(), overlappingschwarz.hh:1260-1262: the object is not changed, since a default constructed SuperLU does not reuse its vectors; relaxResult changes the current entry, overlappingschwarz.hh:1441-1448 *)
  Definition superlu_solver : @subsolver R :=
    mkSub (@state R F) (fun A rows => setSubMatrix lib (start None) 1 1 (unit_blocks A) rows)
          (fun st lhs rhs => obind (applyArrays lib st lhs rhs) (fun r => Ok (snd (fst r), snd r))) false.

  (** the order of the local matrix and its entries *)
  Definition submatrix (A : smat) (d : list nat) (i j : nat) : R := den A (nth i d 0) (nth j d 0).
  (** y is the solution of the local problem with right hand side r *)
  Definition local_solve (A : smat) (d : list nat) (r y : vec) : Prop := length y = length d /\ solution (length d) (submatrix A d) y r.

  Lemma unit_wf n (A : smat) : mat_wf n n A -> bmat_wf n n (unit_blocks A).
  Proof.
    intros [HL HW]. split; [unfold unit_blocks; rewrite map_length; auto|]. unfold unit_blocks. rewrite Forall_forall in *. intros row Hr. apply in_map_iff in Hr. destruct Hr as (row0 & <- & Hr). rewrite map_map. cbn [fst].
    destruct (HW row0 Hr) as [W1 W2]. change (map (fun x : nat * R => fst x) row0) with (map fst row0). auto.
  Qed.
  Lemma unit_subblocks n (A : smat) d i j : mat_wf n n A -> i < length d -> j < length d -> subblocks 1 (unit_blocks A) d i j = submatrix A d i j.
  Proof.
    intros HW Hi Hj. unfold subblocks, submatrix, den. rewrite !Nat.div_1_r. unfold unit_blocks. change (@nil (nat * @blk R)) with (map (fun e : nat * R => (fst e, fun _ _ : nat => snd e)) nil). rewrite map_nth.
    pose proof (mat_wf_row n n A (nth i d 0) HW) as [HS _]. generalize dependent (nth (nth i d 0) A nil). intros row HS. generalize (nth j d 0) as c. intros c.
    clear - HS. induction row as [|[k a] row IH]; cbn [map find fst snd denrow]; auto. destruct (Nat.eqb_spec k c) as [->|NE].
    - reflexivity.
    - rewrite IH by (cbn in HS; apply StronglySorted_inv in HS; apply HS). reflexivity.
  Qed.
  Lemma superlu_local n (A : smat) d : roomy lib -> mat_wf n n A -> domain_wf n d -> nth 0 A nil <> nil ->
    exists st, set_sub superlu_solver A d = Ok st /\ holds lib (system (length d) (subblocks 1 (unit_blocks A) d)) 0 st /\ reuse st = false.
  Proof.
    intros RM HW [HS HF] NE. pose proof (unit_wf n A HW) as UW. cbn [set_sub superlu_solver]. assert (NE' : nth 0 (unit_blocks A) nil <> nil) by (destruct A as [|[|e row] A]; cbn in *; congruence).
    destruct (do_ok lib Nothing 0 (start None) (CSub 1 n (unit_blocks A) d) _ _ RM (start_holds lib None) ltac:(cbn [wf_call]; repeat split; auto; apply UW) eq_refl) as (st & E & H). cbn [do] in E. rewrite Nat.mul_1_r in H. exists st. split; auto. split; auto.
    clear - E. unfold setSubMatrix in E. change (release (start None)) with (Ok (start None) : outcome (@state R F)) in E. cbn [obind] in E. change (mat_release (start None)) with (Ok (start None) : outcome (@state R F)) in E. cbn [obind] in E.
    destruct (unit_blocks A) as [|[|e row] B]; try discriminate. destruct (copySubset r0 1 1 (length d * 1) ((e :: row) :: B) d) as [out| |]; try discriminate. cbn [obind] in E.
    unfold install in E. destruct (length d * 1 <? length d * 1); try discriminate. cbn [news] in E. unfold decompose in E. cbn [obind Superlu.arrays mem] in E.
    match type of E with context [match ?m with _ => _ end] => destruct m; try discriminate end. cbn [news] in E. match type of E with (if ?c then _ else _) = _ => destruct c end; injection E as <-; reflexivity.
  Qed.
  Lemma apply_keeps st lhs rhs st' x' b' : applyArrays lib st lhs rhs = Ok (st', x', b') -> length x' = length lhs /\ length b' = length rhs /\ (reuse st = false -> st' = st).
  Proof.
    unfold applyArrays. intros E. destruct (mN st + mM st =? 0); try discriminate. destruct (describe st) as [st1| |] eqn:ED; try discriminate. cbn [obind] in E.
    destruct (Superlu.solve lib st1 lhs rhs) as [[x1 b1]| |] eqn:ES; try discriminate. cbn [obind fst snd] in E. injection E as <- <- <-.
    assert (L : length x1 = length lhs /\ length b1 = length rhs).
    { unfold Superlu.solve in ES. repeat match type of ES with match ?m with _ => _ end = _ => destruct m eqn:?; try discriminate end. injection ES as <- <-.
      match goal with E : (_ || _)%bool = false |- _ => apply orb_false_iff in E; destruct E as [E1 E2]; apply Nat.ltb_ge in E1, E2 end. unfold firsts. rewrite !app_length, !map_length, !seq_length, !skipn_length. lia. }
    split; [apply L|]. split; [apply L|]. intros ER. unfold describe in ED. rewrite ER in ED. injection ED as <-. auto.
  Qed.
  Lemma superlu_keeps : keeps_length superlu_solver.
  Proof.
    intros st lhs rhs lhs' rhs' E. cbn [l_apply superlu_solver] in E. destruct (applyArrays lib st lhs rhs) as [[[st' x'] b']| |] eqn:EA; try discriminate. cbn [obind fst snd] in E. injection E as <- <-.
    destruct (apply_keeps _ _ _ _ _ _ EA) as (H1 & H2 & _). auto.
  Qed.
  (** Set up for rows d, the solver never fails and computes the solution of the local problem, if SuperLU factorises the local matrix. *)
  Theorem C82_local_solver n (A : smat) d : sound lib -> roomy lib -> mat_wf n n A -> domain_wf n d -> d <> nil -> nth 0 A nil <> nil -> factorises lib (length d) (submatrix A d) true ->
    solver_total superlu_solver A d /\ (forall r y, local_solution superlu_solver A d r y -> local_solve A d r y).
  Proof.
    intros SO RM HW HD NN NE FA. destruct (superlu_local n A d RM HW HD NE) as (st & E & H & RU). assert (LD : 0 < length d) by (destruct d; [congruence|cbn; lia]).
    destruct (length d) as [|k] eqn:EL; [lia|]. cbn [system] in H. rewrite <- EL in *. set (B := subblocks 1 (unit_blocks A) d) in *.
    assert (FB : factorises lib (length d) B true). { intros M LG NC EN. apply FA; auto. intros i j Hi Hj. rewrite EN by auto. unfold B. apply (unit_subblocks n); auto. }
    pose proof (holds_applies lib _ _ _ H) as (_ & _ & AP). specialize (AP SO FB). split.
    - exists st. split; [exact E|]. intros lhs rhs H1 H2. cbn [l_apply superlu_solver]. destruct (AP lhs rhs ltac:(lia) ltac:(lia)) as (st' & x' & b' & EA & _). rewrite EA. cbn [obind]. eauto.
    - intros r y (l & lhs & rhs & lhs' & rhs' & S1 & S2 & S3 & S4 & S5 & S6). rewrite E in S1. injection S1 as <-. split; auto. cbn [l_apply superlu_solver] in S3.
      assert (LR : length d <= length rhs) by (rewrite <- S5, <- S2, firstn_length; lia).
      destruct (applyArrays lib st lhs rhs) as [[[st' x'] b']| |] eqn:EA; try discriminate. cbn [obind fst snd] in S3. injection S3 as -> ->.
      assert (LX : length d <= length lhs).
      { destruct (Nat.le_gt_cases (length d) (length lhs)); auto. exfalso. unfold applyArrays in EA. destruct (describe_ok lib _ _ _ _ H) as (st1 & ED & (_ & _ & HN1 & _ & (fi & _ & _ & HM1) & c & AR & _ & _ & _ & HF)). pose proof H as (_ & K & HN & HM & _). rewrite HN, HM in EA.
        replace (length d + length d =? 0) with false in EA by (symmetry; apply Nat.eqb_neq; lia). rewrite ED in EA. cbn [obind] in EA. unfold Superlu.solve in EA. rewrite HF, AR, !HM1, HN1 in EA. cbn [owned orb] in EA. destruct (Nat.ltb_spec (length lhs) (length d)); [|lia]. rewrite orb_true_r in EA. discriminate. }
      destruct (AP lhs rhs LR LX) as (st2 & x2 & b2 & EA2 & _ & _ & SL). rewrite EA in EA2. injection EA2 as <- <- <-. rewrite S4, S2 in SL. intros i Hi. rewrite <- (SL i Hi). apply sum_ext. intros j Hj. unfold B. rewrite (unit_subblocks n) by auto. reflexivity.
  Qed.
  (** The preconditioner never fails; in the additive mode it adds w times the sum of the solutions of the local problems, all with the residual of the incoming x *)
  Theorem C82_schwarz n (A : smat) sd w fly : sound lib -> roomy lib -> mat_wf n n A -> nth 0 A nil <> nil -> Forall (fun d => domain_wf n d /\ d <> nil /\ factorises lib (length d) (submatrix A d) true) sd ->
    exists z, constructed superlu_solver n A sd w fly z /\ forall x b, length x = n -> length b = n ->
      (forall m, exists x', schwarz_apply superlu_solver m z x b = Ok x') /\
      (exists x' ys, schwarz_apply superlu_solver Additive z x b = Ok x' /\ length x' = n /\ Forall2 (fun d y => local_solve A d (map (residual n A b x) d) y) sd ys /\
        forall i, i < n -> vget x' i = radd (vget x i) (rmul w (lsum (map (fun p => extend (fst p) (snd p) i) (combine sd ys))))).
  Proof.
    intros SO RM HW NE HF. destruct (C55_total superlu_solver superlu_keeps n A sd w fly HW) as (z & HC & HT).
    - eapply Forall_impl; [|exact HF]. cbn. tauto.
    - eapply Forall_impl; [|exact HF]. cbn. intros d (H1 & H2 & H3). apply (C82_local_solver n); auto.
    - exists z. split; auto. intros x b LX LB. split; [intros m; apply HT; auto|]. destruct (HT Additive x b LX LB) as (x' & E). destruct (C55_additive superlu_solver superlu_keeps n A sd w fly z x b x' HC LX LB E) as (L & ys & F2 & V).
      exists x', ys. split; auto. split; auto. split; auto. clear - F2 HF SO RM HW NE. induction F2 as [|d y sd ys H F2 IH]; constructor.
      + apply Forall_inv in HF. destruct HF as (H1 & H2 & H3). apply (C82_local_solver n A d SO RM HW H1 H2 NE H3). auto.
      + apply IH. eapply Forall_inv_tail; eauto.
  Qed.
  (** one after another: the local problem of d with the residual of the current x, w times its solution is added to x *)
  Inductive local_steps (n : nat) (A : smat) (w : R) (b : vec) : list (list nat) -> vec -> vec -> Prop :=
  | stop x : local_steps n A w b nil x x
  | step d ds x y x1 x' : local_solve A d (map (residual n A b x) d) y -> length x1 = n -> (forall i, i < n -> vget x1 i = radd (vget x i) (rmul w (extend d y i))) ->
      local_steps n A w b ds x1 x' -> local_steps n A w b (d :: ds) x x'.
  (** in the multiplicative modes *)
  Theorem C82_schwarz_steps n (A : smat) sd w fly z x b x' : sound lib -> roomy lib -> nth 0 A nil <> nil -> Forall (fun d => d <> nil /\ factorises lib (length d) (submatrix A d) true) sd ->
    constructed superlu_solver n A sd w fly z -> length x = n -> length b = n ->
    (schwarz_apply superlu_solver Multiplicative z x b = Ok x' -> length x' = n /\ local_steps n A w b sd x x') /\
    (schwarz_apply superlu_solver SymmetricMultiplicative z x b = Ok x' -> length x' = n /\ local_steps n A w b (sd ++ rev sd) x x').
  Proof.
    intros SO RM NE HF HC LX LB. pose proof HC as (_ & HW & HD). destruct (C55_multiplicative superlu_solver superlu_keeps n A sd w fly z x b x' HC eq_refl LX LB) as [M1 M2].
    assert (G : forall ds x x', Forall (domain_wf n) ds -> Forall (fun d => d <> nil /\ factorises lib (length d) (submatrix A d) true) ds -> mult_steps superlu_solver n A w b ds x x' -> local_steps n A w b ds x x').
    { clear - SO RM NE HW. intros ds x x' H1 H2 M. induction M as [x|d ds x y x1 x' N1 N2 N3 N4 IH]; [constructor|]. apply Forall_cons_iff in H1, H2. destruct H1 as [D1 H1], H2 as [[D2 D3] H2]. apply (step n A w b d ds x y x1 x'); auto.
      destruct (C82_local_solver n A d SO RM HW D1 D2 NE D3) as [_ LS]. apply LS. exact N1. }
    split; intros H; [apply M1 in H|apply M2 in H]; (split; [apply H|]); apply G; try apply H; auto; apply Forall_app; split; auto; apply Forall_rev; auto.
  Qed.
  (** in the multiplicative mode without damping the equations of the subdomain that is treated last hold *)
  Theorem C82_schwarz_exact n (A : smat) sd d fly z x b x' : sound lib -> roomy lib -> nth 0 A nil <> nil -> d <> nil -> factorises lib (length d) (submatrix A d) true -> constructed superlu_solver n A (sd ++ [d]) r1 fly z -> length x = n -> length b = n ->
    schwarz_apply superlu_solver Multiplicative z x b = Ok x' -> forall i, In i d -> sum n (fun j => rmul (den A i j) (vget x' j)) = vget b i.
  Proof.
    intros SO RM NE NN FA HC LX LB E. apply (C55_exact superlu_solver superlu_keeps n A r1 fly z sd d x b x' HC eq_refl); auto. pose proof HC as (_ & HW & HD). apply Forall_app in HD. destruct HD as [_ HD]. apply Forall_inv in HD.
    intros r y HS. destruct (C82_local_solver n A d SO RM HW HD NN NE FA) as [_ H]. apply (H r y HS).
  Qed.
  (** Deviation: with a subdomain without rows (a number that no row lists, say) nothing can be applied, SuperLU refuses empty systems *)
  Theorem C82_empty_domain_refuted n (A : smat) sd w fly z m x b x' : roomy lib -> nth 0 A nil <> nil -> constructed superlu_solver n A sd w fly z -> In nil sd -> schwarz_apply superlu_solver m z x b <> Ok x'.
  Proof.
    intros RM NE HC HI. destruct (constructed_facts superlu_solver n A sd w fly z HC) as (EA & EW & EF & ED & EM & HD & HR). pose proof HC as (_ & HW & HDs).
    destruct (superlu_local n A nil RM HW) as (st & E & H & _); [split; constructor|auto|]. cbn [length system] in H. pose proof (holds_applies lib _ _ _ H) as AP. cbn [applies] in AP.
    assert (SW : forall doms, Forall (ready superlu_solver A fly) doms -> In nil (map fst doms) -> forall ad s s', sweep superlu_solver A w ad b fly doms s <> Ok s').
    { induction doms as [|[d o] doms IH]; intros HRd HId ad s s'; [destruct HId|]. inversion HRd as [|? ? HR1 HR2]; subst. cbn [sweep]. destruct HId as [HId|HId].
      - cbn [fst] in HId. subst d. unfold one_domain. cbn [fst snd assign_all obind].
        assert (EL : (if z_fly superlu_solver z then set_sub superlu_solver (z_A superlu_solver z) nil else match o with Some l => Ok l | None => UB end) = Ok st).
        { destruct (z_fly superlu_solver z) eqn:EZ; auto. destruct (HR1 eq_refl) as (l & E1 & E2). cbn [fst snd] in E1, E2. rewrite E in E2. injection E2 as <-. subst o. reflexivity. }
        rewrite EL. cbn [obind l_apply superlu_solver]. destruct (AP (s_lhs s) (s_rhs s)) as [_ ->]. discriminate.
      - destruct (one_domain _ _ _ _ _ _ _ s); cbn [obind]; try discriminate. apply IH; auto. }
    assert (AD : forall fwd y y', apply_dir superlu_solver m z fwd y b <> Ok y').
    { intros fwd y y'. unfold apply_dir. rewrite EA, EW, EF. match goal with |- obind (sweep _ _ _ ?ad _ _ ?doms ?s) _ <> _ => destruct (sweep superlu_solver A w ad b fly doms s) as [s'| |] eqn:ES; cbn [obind]; try discriminate; exfalso; revert ES; apply SW end.
      - destruct fwd; auto. apply Forall_rev. auto.
      - destruct fwd; [rewrite ED; auto|]. rewrite map_rev, ED. apply in_rev in HI. auto. }
    unfold schwarz_apply. destruct m; [apply AD|apply AD|]. destruct (apply_dir superlu_solver SymmetricMultiplicative z true x b) as [x1| |] eqn:E1; cbn [obind]; try discriminate. exfalso. exact (AD _ _ _ E1).
  Qed.
End Objects.

(** Deviation: a row that lists a subdomain twice inserts its index once but is counted twice, so that the later rows of the subdomain get numbers outside of the arrays *)
Theorem C82_duplicate_refuted (T : Type) (t0 : T) (b00 b01 b10 b11 : @blk T) :
  assemble_rows t0 1 1 [[(0, b00); (1, b01)]; [(0, b10); (1, b11)]] [[0; 0]; [0]] = UB /\ domains_of_rows [[0; 0]; [0]] = [[0; 1]].
Proof. split; reflexivity. Qed.

(** ** Examples *)
Section DExamples.
  Local Open Scope Z_scope.
  (** solves systems of order 2 and determinant 1 *)
  Let lib2 : library (R := Zring) (Z * Z * Z * Z) :=
    Lib (R := Zring) (F := Z * Z * Z * Z) (fun _ => true)
      (fun M => let m := @entry Zring M in ((m 0%nat 0%nat, m 0%nat 1%nat, m 1%nat 0%nat, m 1%nat 1%nat), (cN M =? 2)%nat && (m 0%nat 0%nat * m 1%nat 1%nat - m 0%nat 1%nat * m 1%nat 0%nat =? 1)))
      (fun f b => let '(a, c, d, e) := f in ([e * nth 0 b 0 - c * nth 1 b 0; a * nth 1 b 0 - d * nth 0 b 0], map Z.opp b)).
  (** two overlapping subdomains, {0, 1} and {1, 2}, of a tridiagonal matrix, both local matrices of determinant 1 *)
  Let A3 : smat Zring := [[(0%nat, 5); (1%nat, 3)]; [(0%nat, 3); (1%nat, 2); (2%nat, 1)]; [(1%nat, 3); (2%nat, 2)]].
  Let sd3 : list (list nat) := [[0; 1]; [1; 2]]%nat.
  Lemma A3_wf : mat_wf 3 3 A3.
  Proof. split; [reflexivity|]. repeat constructor. Qed.
  Lemma A3_factorises d : In d sd3 -> factorises lib2 (length d) (submatrix A3 d) true.
  Proof. intros [<-|[<-|[]]] M LG NC EN; unfold lib2; cbn [lufact snd]; rewrite NC, !EN by (cbn; lia); reflexivity. Qed.
  Example C82_nonvacuous : sound lib2 /\ roomy lib2 /\ mat_wf 3 3 A3 /\ nth 0 A3 nil <> nil /\ Forall (fun d => domain_wf 3 d /\ d <> nil /\ factorises lib2 (length d) (submatrix A3 d) true) sd3.
  Proof.
    split; [exact lib2_sound|]. split; [intros M _; reflexivity|]. split; [exact A3_wf|]. split; [discriminate|].
    rewrite Forall_forall. intros d Hd. split; [|split; [destruct Hd as [<-|[<-|[]]]; discriminate|apply A3_factorises; auto]]. destruct Hd as [<-|[<-|[]]]; repeat constructor.
  Qed.
  (** what both constructors assemble: the lower right matrix has the middle entry twice in the two subdomains *)
  Example C82_assembled : let outs := [mkccs [0; 2; 4]%nat [0; 1; 0; 1]%nat [5; 3; 3; 2]; mkccs [0; 2; 4]%nat [0; 1; 0; 1]%nat [2; 3; 1; 2]] in
    assemble_domains 0 1 1 (unit_blocks A3) sd3 = Ok outs /\ assemble_rows 0 1 1 (unit_blocks A3) [[0]; [0; 1]; [1]]%nat = Ok outs /\ consistent 3 [[0]; [0; 1]; [1]]%nat sd3.
  Proof.
    cbv zeta. split; [match goal with |- _ = ?r => vm_cast_no_check (eq_refl r) end|]. split; [match goal with |- _ = ?r => vm_cast_no_check (eq_refl r) end|].
    apply (C82_from_rows 3 [[0]; [0; 1]; [1]]%nat eq_refl). repeat constructor; cbn; intuition lia.
  Qed.
  (** the additive mode: x = 0, b = (8, 5, 5) *)
  Example C82_applied : exists z, constructed (superlu_solver lib2) 3 A3 sd3 1 false z /\ schwarz_apply (superlu_solver lib2) Additive z [0; 0; 0] [8; 5; 5] = Ok [1; 6; -5].
  Proof.
    assert (E : obind (schwarz_ctor (superlu_solver lib2) A3 sd3 1 false) (fun z => schwarz_apply (superlu_solver lib2) Additive z [0; 0; 0] [8; 5; 5]) = Ok [1; 6; -5]) by (match goal with |- _ = ?r => vm_cast_no_check (eq_refl r) end).
    apply obind_Ok in E. destruct E as (z & E & EA). exists z. split; auto. split; [exact E|]. split; [exact A3_wf|]. eapply Forall_impl; [|apply C82_nonvacuous]. cbn. tauto.
  Qed.
  Example C82_empty_nonvacuous : exists z, constructed (superlu_solver lib2) 3 A3 (nil :: sd3) 1 false z /\ In nil (nil :: sd3).
  Proof.
    assert (E : isok (schwarz_ctor (superlu_solver lib2) A3 (nil :: sd3) 1 false) = true) by (match goal with |- _ = ?r => vm_cast_no_check (eq_refl r) end).
    destruct (schwarz_ctor (superlu_solver lib2) A3 (nil :: sd3) 1 false) as [z| |] eqn:EZ; [|discriminate E|discriminate E]. clear E. exists z. split; [|left; reflexivity]. split; [exact EZ|]. split; [exact A3_wf|].
    constructor; [split; constructor|]. eapply Forall_impl; [|apply C82_nonvacuous]. cbn. tauto.
  Qed.
End DExamples.
Print Assumptions C82_assemble.
Print Assumptions C82_constructors.
Print Assumptions C82_superlu.
Print Assumptions C82_schwarz.
Print Assumptions C82_schwarz_steps.
Print Assumptions C82_schwarz_exact.
Print Assumptions C82_empty_domain_refuted.
