(** * A singular diagonal block makes the solves and sweeps throw FMatrixError (C13, C14)

    Model: GsModel.v. *)
From Coq Require Import Arith List Lia Bool ZArith.
From Verif Require Import Ring Sums Outcome Sparse RingInst GsModel Gs.
Import ListNotations.
Open Scope nat_scope.

Section Throws.
  Context {B X E : Type}.
  Variable f : nat -> list (nat * B) -> list X -> E -> outcome (X * E).
  Lemma fwd_throw ex : forall rows i x e,
    (forall k row x e, nth_error rows k = Some row -> (exists u, f (i + k) row x e = Ok u) \/ f (i + k) row x e = Throw ex) ->
    (exists k row, nth_error rows k = Some row /\ forall x e, f (i + k) row x e = Throw ex) -> fwd f i rows x e = Throw ex.
  Proof.
    induction rows as [|row t IH]; intros i x e H (k & row' & Hk & Hf); [destruct k; discriminate|]. cbn [fwd].
    destruct k as [|k].
    - injection Hk as ->. specialize (Hf x e). rewrite Nat.add_0_r in Hf. rewrite Hf. reflexivity.
    - destruct (H 0 row x e eq_refl) as [[u Eu]|Eu]; rewrite Nat.add_0_r in Eu; rewrite Eu; cbn [obind]; [|reflexivity].
      apply IH.
      + intros k' row'' x' e' Hk'. replace (S i + k') with (i + S k') by lia. apply H. exact Hk'.
      + exists k, row'. split; [exact Hk|]. intros x' e'. replace (S i + k) with (i + S k) by lia. apply Hf.
  Qed.
  Lemma bwd_throw ex : forall rows i x e,
    (forall k row x e, nth_error rows k = Some row -> (exists u, f (i + k) row x e = Ok u) \/ f (i + k) row x e = Throw ex) ->
    (exists k row, nth_error rows k = Some row /\ forall x e, f (i + k) row x e = Throw ex) -> bwd f i rows x e = Throw ex.
  Proof.
    assert (T : forall rows i x e, (forall k row x e, nth_error rows k = Some row -> (exists u, f (i + k) row x e = Ok u) \/ f (i + k) row x e = Throw ex) ->
      (exists r, bwd f i rows x e = Ok r) \/ bwd f i rows x e = Throw ex).
    { induction rows as [|row t IH]; intros i x e H; cbn [bwd]; [left; eauto|].
      destruct (IH (S i) x e) as [[r Er]| Er].
      - intros k' row'' x' e' Hk'. replace (S i + k') with (i + S k') by lia. apply H. exact Hk'.
      - rewrite Er. cbn [obind]. destruct (H 0 row (fst r) (snd r) eq_refl) as [[u Eu]|Eu]; rewrite Nat.add_0_r in Eu; rewrite Eu; cbn [obind]; [left; eauto|right; reflexivity].
      - rewrite Er. right. reflexivity. }
    induction rows as [|row t IH]; intros i x e H (k & row' & Hk & Hf); [destruct k; discriminate|]. cbn [bwd].
    assert (Ht : forall k' row'' x' e', nth_error t k' = Some row'' -> (exists u, f (S i + k') row'' x' e' = Ok u) \/ f (S i + k') row'' x' e' = Throw ex).
    { intros k' row'' x' e' Hk'. replace (S i + k') with (i + S k') by lia. apply H. exact Hk'. }
    destruct k as [|k].
    - injection Hk as ->. destruct (T t (S i) x e Ht) as [[r Er]|Er]; rewrite Er; cbn [obind]; [|reflexivity].
      specialize (Hf (fst r) (snd r)). rewrite Nat.add_0_r in Hf. rewrite Hf. reflexivity.
    - rewrite IH; [reflexivity|exact Ht|]. exists k, row'. split; [exact Hk|]. intros x' e'. replace (S i + k) with (i + S k) by lia. apply Hf.
  Qed.
End Throws.

Section Singular.
  Context {R : ring}.
  Local Open Scope ring_scope_istl.
  Variable inv : R -> option R.
  (** a stored diagonal block which the dense solver rejects *)
  Definition diag_singular (n : nat) (A : smat R) : Prop := exists i, i < n /\ inv (den A i i) = None.

  Section One.
    Context (n : nat) (A : smat R) (HW : mat_wf n n A) (HD : diag_stored n A) (HS : diag_singular n A).
    Lemma row_at k row : nth_error A k = Some row -> k < n /\ nth k A nil = row.
    Proof.
      intros H. split; [|apply nth_error_nth; exact H]. rewrite <- (proj1 HW). apply nth_error_Some. rewrite H. discriminate.
    Qed.
    Lemma sing_row : exists k row, nth_error A k = Some row /\ inv (den A k k) = None.
    Proof.
      destruct HS as (i & Hi & Hs). exists i, (nth i A nil). split; [|exact Hs]. apply nth_error_nth'. rewrite (proj1 HW). exact Hi.
    Qed.
    Lemma cases {X} (P : outcome X -> Prop) k r (g : R -> outcome X) : (forall u, P (g u)) -> P (Throw EFMatrix) -> P (obind (blk_solve inv (den A k k) r) g).
    Proof. intros H1 H2. unfold blk_solve. destruct (inv (den A k k)); cbn [obind]; auto. Qed.
    Lemma lo_case k row x r' : nth_error A k = Some row ->
      exists lo hi, row = lo ++ (k, den A k k) :: hi /\ lower_loop r0 blk_mmv k row x r' = (minus_all r0 blk_mmv lo x r', (k, den A k k) :: hi) /\
        row_find row k = Some (den A k k).
    Proof.
      intros H. destruct (row_at k row H) as [Hk Er]. destruct (wf_split n n A k HW (HD k Hk)) as (lo & hi & E & H1 & _). rewrite Er in E.
      exists lo, hi. split; [exact E|]. rewrite E. split; [apply lower_loop_split; exact H1|apply row_find_split; exact H1].
    Qed.
    Lemma up_case k row x r' : nth_error A k = Some row ->
      exists lo hi, upper_loop r0 blk_mmv k (rev row) x r' = (minus_all r0 blk_mmv (rev hi) x r', (k, den A k k) :: rev lo).
    Proof.
      intros H. destruct (row_at k row H) as [Hk Er]. destruct (wf_split n n A k HW (HD k Hk)) as (lo & hi & E & _ & H2 & _). rewrite Er in E.
      exists lo, hi. rewrite E. apply upper_loop_split. exact H2.
    Qed.
    (** what one row does: it succeeds or throws FMatrixError, and the singular one throws *)
    Lemma by_fwd {E} (f : nat -> list (nat * R) -> list R -> E -> outcome (R * E)) x e :
      (forall k row x e, nth_error A k = Some row -> exists r (g : R -> outcome (R * E)), f k row x e = obind (blk_solve inv (den A k k) r) g /\ forall u, exists w, g u = Ok w) ->
      fwd f 0 A x e = Throw EFMatrix /\ bwd f 0 A x e = Throw EFMatrix.
    Proof.
      intros H.
      assert (H1 : forall k row x e, nth_error A k = Some row -> (exists u, f (0 + k)%nat row x e = Ok u) \/ f (0 + k)%nat row x e = Throw EFMatrix).
      { intros k row x0 e0 Hk. cbn [Nat.add]. destruct (H k row x0 e0 Hk) as (r & g & -> & Hg). apply (cases (fun o => (exists u, o = Ok u) \/ o = Throw EFMatrix)); [|right; reflexivity].
        intros u. destruct (Hg u) as (w & ->). left. eauto. }
      assert (H2 : exists k row, nth_error A k = Some row /\ forall x e, f (0 + k)%nat row x e = Throw EFMatrix).
      { destruct sing_row as (k & row & Hk & Hs). exists k, row. split; [exact Hk|]. intros x0 e0. cbn [Nat.add]. destruct (H k row x0 e0 Hk) as (r & g & -> & _).
        unfold blk_solve. rewrite Hs. reflexivity. }
      split; [apply fwd_throw; assumption|apply bwd_throw; assumption].
    Qed.
    Lemma obind_assoc {X Y Z} (o : outcome X) (g : X -> outcome Y) (h : Y -> outcome Z) : obind (obind o g) h = obind o (fun a => obind (g a) h).
    Proof. destruct o; reflexivity. Qed.
    Ltac low k row x r := match goal with Hk : nth_error A k = Some row |- _ => destruct (lo_case k row x r Hk) as (lo & hi & Er & El & Ef) end.
    Ltac fin := do 2 eexists; split; [reflexivity|intros; eexists; reflexivity].

    (** all the block triangular and diagonal solves *)
    Theorem C13_singular_diagonal (v d : vec R) (w : R) :
      bltsolve inv A v d = Throw EFMatrix /\ bltsolve_w inv A v d w = Throw EFMatrix /\ butsolve inv A v d = Throw EFMatrix /\ butsolve_w inv A v d w = Throw EFMatrix /\
      bdsolve inv A v d = Throw EFMatrix /\ bdsolve_w inv A v d w = Throw EFMatrix.
    Proof.
      unfold bltsolve, bltsolve_w, butsolve, butsolve_w, bdsolve, bdsolve_w, bltsolve_gen, butsolve_gen, bdsolve_gen.
      repeat match goal with |- _ /\ _ => split end;
        match goal with |- obind ?o _ = _ => let H := fresh in enough (H : o = Throw EFMatrix) by (rewrite H; reflexivity) end;
        (eapply by_fwd; intros k row x e Hk;
         first [ destruct (lo_case k row x (nth k d r0) Hk) as (lo & hi & _ & El & Ef); first [rewrite El | rewrite Ef]
               | destruct (up_case k row x (nth k d r0) Hk) as (lo & hi & El); rewrite El ]; rewrite ?obind_assoc; fin).
    Qed.
    (** all the sweeps *)
    Theorem C14_singular_diagonal (x b : vec R) (w : R) :
      dbgs inv A x b w = Throw EFMatrix /\ bsorf inv A x b w = Throw EFMatrix /\ bsorb inv A x b w = Throw EFMatrix /\ dbjac inv A x b w = Throw EFMatrix.
    Proof.
      unfold dbgs, bsorf, bsorb, dbjac, dbgs_gen, bsorf_gen, bsorb_gen, dbjac_gen, bsor_body.
      repeat match goal with |- _ /\ _ => split end;
        match goal with |- obind ?o _ = _ => let H := fresh in enough (H : o = Throw EFMatrix) by (rewrite H; reflexivity) end;
        (eapply by_fwd; intros k row x' e Hk;
         first [ destruct (lo_case k row x' (nth k b r0) Hk) as (lo & hi & _ & El & _); rewrite El | destruct (lo_case k row x (nth k b r0) Hk) as (lo & hi & _ & El & _); rewrite El ];
         rewrite ?obind_assoc; fin).
    Qed.
  End One.
End Singular.
(** a 2x2 matrix with a zero second diagonal entry meets the hypotheses *)
Example singular_nonvacuous : let A := [[(0, 1%Z); (1, 2%Z)]; [(0, 3%Z); (1, 0%Z)]] : smat Zring in
  mat_wf 2 2 A /\ diag_stored 2 A /\ diag_singular (R := Zring) (fun a : Z => if Z.eqb a 1 then Some 1%Z else None) 2 A.
Proof.
  cbn zeta. split; [split; [reflexivity|repeat constructor; cbn; lia]|]. split; [intros [|[|i]] Hi; cbn; auto; lia|].
  exists 1. split; [lia|reflexivity].
Qed.
Print Assumptions C13_singular_diagonal.
Print Assumptions C14_singular_diagonal.
