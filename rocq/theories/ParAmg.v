(** * The parallel multigrid cycle (C75): AMG::apply, mgc, moveToCoarseLevel, moveToFineLevel (paamg/amg.hh), presmooth, postsmooth (paamg/smoother.hh) on all processes, with
    OverlappingSchwarzOperator, BlockPreconditioner and ParSSOR (schwarz.hh); without redistribution to fewer processes *)
From Coq Require Import Arith List Lia Bool Sorted Permutation ZArith.
From Verif Require Import Ring RingInst Sums Outcome Sparse MatVec AmgTransfer Bfs AggPattern Parallel ParComm ParOps ParCoarsen ParGalerkin.
From Verif Require Amg.
Import ListNotations.
Open Scope nat_scope.

(** ** Programs of all processes together: the set of possible outcomes, as messages may arrive in any order *)
Definition prog (X : Type) : Type := outcome X -> Prop.
Definition pret {X} (x : X) : prog X := fun o => o = Ok x.
Definition pbind {X Y} (m : prog X) (f : X -> prog Y) : prog Y :=
  fun o => (exists x, m (Ok x) /\ f x o) \/ (m UB /\ o = UB) \/ (exists e, m (Throw e) /\ o = Throw e).
(** a program can run, does not fail, and all its results satisfy Q *)
Definition pok {X} (m : prog X) (Q : X -> Prop) : Prop := (exists o, m o) /\ forall o, m o -> exists x, o = Ok x /\ Q x.
Lemma pok_ret {X} (x : X) (Q : X -> Prop) : Q x -> pok (pret x) Q.
Proof. intros H. split; [exists (Ok x); reflexivity|]. intros o ->. eauto. Qed.
Lemma pok_bind {X Y} (m : prog X) (f : X -> prog Y) (Q : X -> Prop) (Q' : Y -> Prop) : pok m Q -> (forall x, Q x -> pok (f x) Q') -> pok (pbind m f) Q'.
Proof.
  intros [[o H1] H2] HF. split.
  - destruct (H2 o H1) as (x & -> & HQ). destruct (HF x HQ) as [[o' H3] _]. exists o'. left. eauto.
  - intros o' [(x & H3 & H4)|[[H3 _]|(e & H3 & _)]]; destruct (H2 _ H3) as (y & E & HQ); try discriminate. injection E as <-. apply (HF x HQ). exact H4.
Qed.
Lemma pok_weaken {X} (m : prog X) (Q Q' : X -> Prop) : pok m Q -> (forall x, Q x -> Q' x) -> pok m Q'.
Proof. intros [H1 H2] H. split; auto. intros o Ho. destruct (H2 o Ho) as (x & E & HQ). eauto. Qed.

(** a program can run and always ends with the exception *)
Definition pthrows {X} (m : prog X) (e : exn) : Prop := (exists o, m o) /\ forall o, m o -> o = Throw e.
Lemma pthrows_now {X} e : pthrows (fun o : outcome X => o = Throw e) e.
Proof. split; eauto. Qed.
Lemma pthrows_bind {X Y} (m : prog X) (f : X -> prog Y) (Q : X -> Prop) e : pok m Q -> (forall x, Q x -> pthrows (f x) e) -> pthrows (pbind m f) e.
Proof.
  intros [[o H1] H2] HF. split.
  - destruct (H2 o H1) as (x & -> & HQ). destruct (HF x HQ) as [[o' H3] _]. exists o'. left. eauto.
  - intros o' [(x & H3 & H4)|[[H3 _]|(e' & H3 & _)]]; destruct (H2 _ H3) as (y & E & HQ); try discriminate. injection E as <-. apply (HF x HQ). exact H4.
Qed.
Lemma pthrows_bind_l {X Y} (m : prog X) (f : X -> prog Y) e : pthrows m e -> pthrows (pbind m f) e.
Proof.
  intros [[o H1] H2]. split.
  - pose proof (H2 o H1) as ->. exists (Throw e). right. right. eauto.
  - intros o' [(x & H3 & _)|[[H3 _]|(e' & H3 & ->)]]; pose proof (H2 _ H3); congruence.
Qed.
Lemma pgen_bind {X Y} (b : bool) (m : prog X) (f : X -> prog Y) (Q : X -> Prop) (Q' : Y -> Prop) e : pok m Q -> (forall x, Q x -> if b then pthrows (f x) e else pok (f x) Q') -> if b then pthrows (pbind m f) e else pok (pbind m f) Q'.
Proof. destruct b; intros H1 H2; [eapply pthrows_bind|eapply pok_bind]; eauto. Qed.

Section Cycle.
  Context {R : ring}.
  Local Open Scope ring_scope_istl.
  Variables (P G : nat).
  (** a vector on all processes *)
  Definition fam : Type := nat -> vec R.
  (** a local operation on every process *)
  Definition each {X} (x0 : X) (f : nat -> outcome X) : prog (nat -> X) :=
    fun o => (exists y, (forall p, p < P -> f p = Ok (y p)) /\ o = Ok y) \/ (exists p, p < P /\ f p = UB /\ o = UB) \/ (exists p e, p < P /\ f p = Throw e /\ o = Throw e).
  Lemma pok_each {X} (x0 : X) f (Q : nat -> X -> Prop) : (forall p, p < P -> exists x, f p = Ok x /\ Q p x) -> pok (each x0 f) (fun y => forall p, p < P -> Q p (y p)).
  Proof.
    intros H. split.
    - assert (GG : forall m, exists y, forall p, p < m -> p < P -> f p = Ok (y p)).
      { induction m as [|m [y IH]]; [exists (fun _ => x0); lia|]. destruct (Nat.lt_ge_cases m P) as [Hm|Hm].
        - destruct (H m Hm) as (x & E & _). exists (fun p => if p =? m then x else y p). intros p H1 H2. destruct (Nat.eqb_spec p m) as [->|]; auto. apply IH; auto. lia.
        - exists y. intros p H1 H2. apply IH; auto. lia. }
      destruct (GG P) as [y Hy]. exists (Ok y). left. exists y. auto.
    - intros o [(y & Hy & ->)|[(p & Hp & E & _)|(p & e & Hp & E & _)]].
      + exists y. split; auto. intros p Hp. destruct (H p Hp) as (x & E & HQ). rewrite (Hy p Hp) in E. injection E as ->. exact HQ.
      + destruct (H p Hp) as (x & E' & _). congruence.
      + destruct (H p Hp) as (x & E' & _). congruence.
  Qed.
  (** pinfo->copyOwnerToAll(x,x) *)
  Definition comm (ix : nat -> pis) (d : fam) : prog fam := fun o => exists d1, copyOwnerToAll P ix None d d1 /\ o = Ok d1.

  (** ** Model *)
  (** a level that is not the coarsest: local sizes, index sets, local matrices, aggregates maps, SmootherApplier::preSmooth/postSmooth on all processes (arguments v and d, the new v) *)
  Record plevel : Type := mkpl { v_sz : nat -> nat; v_ix : nat -> pis; v_A : nat -> smat R; v_agg : nat -> nat -> aggd; v_pre : fam -> fam -> prog fam; v_post : fam -> fam -> prog fam }.
  (** the coarsest level: solver_->apply(update, rhs, res): new update, rhs, converged *)
  Record pcoarse : Type := mkpc { z_sz : nat -> nat; z_ix : nat -> pis; z_solve : fam -> fam -> prog (fam * fam * (nat -> bool)) }.
  (** lhs, rhs and update of one level *)
  Record pst : Type := mkpst { s_lhs : fam; s_rhs : fam; s_upd : fam }.
  Definition fzero (x : fam) : fam := fun p => Amg.setzero (x p).
  Definition fplus (x y : fam) : fam := fun p => Amg.pluseq (x p) (y p).
  (** matrix->applyscaleadd(-1, lhs, rhs) (OverlappingSchwarzOperator) *)
  Definition updateDefect (l : plevel) (lhs rhs : fam) : prog fam := each [] (fun p => oschwarz_applyscaleadd (v_ix l p) (v_A l p) (- r1) (lhs p) (rhs p)).
  Definition fproject (ix : nat -> pis) (x : fam) : prog fam := each [] (fun p => project (ix p) (x p)).
  (** presmooth, smoother.hh:406-421 *)
  Fixpoint ppresmooth (l : plevel) (steps : nat) (s : pst) : prog pst :=
    match steps with
    | 0 => pret s
    | S k => pbind (v_pre l (fzero (s_lhs s)) (s_rhs s)) (fun w => pbind (updateDefect l w (s_rhs s)) (fun r => pbind (fproject (v_ix l) r) (fun r' => ppresmooth l k (mkpst w r' (fplus (s_upd s) w)))))
    end.
  (** postsmooth, smoother.hh:428-442 *)
  Fixpoint ppostsmooth (l : plevel) (steps : nat) (s : pst) : prog pst :=
    match steps with
    | 0 => pret s
    | S k => pbind (updateDefect l (s_lhs s) (s_rhs s)) (fun r => pbind (fproject (v_ix l) r) (fun r' => pbind (v_post l (fzero (s_lhs s)) r') (fun w => ppostsmooth l k (mkpst w r' (fplus (s_upd s) w)))))
    end.
  Variable c : pcoarse.
  Variable damp : R.
  Variables (preSteps postSteps gamma : nat).
  Definition next_ix (ls : list plevel) : nat -> pis := match ls with nil => z_ix c | l :: _ => v_ix l end.
  Definition next_sz (ls : list plevel) : nat -> nat := match ls with nil => z_sz c | l :: _ => v_sz l end.
  (** the gamma loop, amg.hh:1062-1070 *)
  Fixpoint pgloop (f : list pst -> (nat -> bool) -> prog (list pst * (nat -> bool))) (next : option plevel) (g : nat) (st : list pst) (conv : nat -> bool) : prog (list pst * (nat -> bool)) :=
    match g with
    | 0 => pret (st, conv)
    | S g' => pbind (f st conv) (fun r =>
              match next with
              | None => pret r
              | Some l => match g', fst r with
                          | 0, _ => pret r
                          | _, s :: rest => pbind (updateDefect l (s_lhs s) (s_rhs s)) (fun rhs => pgloop f next g' (mkpst (s_lhs s) rhs (s_upd s) :: rest) (snd r))
                          | _, nil => fun o => o = UB
                          end
              end)
    end.
  (** mgc, moveToCoarseLevel, moveToFineLevel, amg.hh:932-1088; the flags coarsesolverconverged of all processes, combined (prod) on the finest level *)
  Fixpoint pmgc (ls : list plevel) (finest : bool) (st : list pst) (conv : nat -> bool) {struct ls} : prog (list pst * (nat -> bool)) :=
    match ls, st with
    | nil, [s] => pbind (comm (z_ix c) (s_rhs s)) (fun rhs => pbind (z_solve c (s_upd s) rhs) (fun r => pret ([mkpst (s_lhs s) (snd (fst r)) (fst (fst r))], fun p => conv p && snd r p)))
    | l :: ls', s :: s1 :: rest =>
      pbind (ppresmooth l preSteps s) (fun s =>
      pbind (each [] (fun p => restrict_parallel (next_ix ls') (v_agg l) p (s_rhs s1 p) (s_rhs s p))) (fun rhs1 =>
      pbind (pgloop (pmgc ls' false) (hd_error ls') gamma (mkpst (s_lhs s1) rhs1 (fzero (s_upd s1)) :: rest) conv) (fun r =>
      match fst r with
      | nil => fun o => o = UB
      | s1' :: rest' =>
        pbind (each ([], []) (fun p => prolongate_parallel (v_agg l) p (s_upd s1' p) (fzero (s_lhs s) p) damp)) (fun cf =>
        let s2 := mkpst (fun p => snd (cf p)) (s_rhs s) (fplus (s_upd s) (fun p => snd (cf p))) in
        let conv' := if finest then fun _ => forallb (snd r) (seq 0 P) else snd r in
        if finest && negb (forallb (snd r) (seq 0 P)) then fun o => o = Throw EMath
        else pbind (ppostsmooth l postSteps s2) (fun s3 => pret (s3 :: mkpst (s_lhs s1') (s_rhs s1') (fun p => fst (cf p)) :: rest', conv')))
      end)))
    | _, _ => fun o => o = UB
    end.
  (** AMG::apply, amg.hh:893-921, multiplicative *)
  Definition pamg_apply (ls : list plevel) (st : list pst) (conv : nat -> bool) (v d : fam) : prog (fam * list pst * (nat -> bool)) :=
    match st with
    | s :: rest => pbind (pmgc ls true (mkpst v d (fzero (s_upd s)) :: rest) conv) (fun r =>
        match fst r with
        | s' :: rest' =>
          if (postSteps =? 0) || (length ls =? 0) then pbind (comm (next_ix ls) (s_upd s')) (fun u => pret (u, mkpst (s_lhs s') (s_rhs s') u :: rest', snd r))
          else pret (s_upd s', fst r, snd r)
        | nil => fun o => o = UB
        end)
    | nil => fun o => o = UB
    end.

  (** ** Specification: the textbook cycle on global vectors *)
  (** a level: global matrix, global aggregates, the possible corrections of a smoother for a defect *)
  Record glevel : Type := mkgl { g_A : nat -> nat -> R; g_ga : nat -> option nat; g_pre : (nat -> R) -> (nat -> R) -> Prop; g_post : (nat -> R) -> (nat -> R) -> Prop }.
  Variable gsolve : (nat -> R) -> (nat -> R) -> Prop.      (* right hand side, possible results of the coarse solver *)
  Definition gres (GA : nat -> nat -> R) (d u : nat -> R) (g : nat) : R := d g - sum G (fun h => GA g h * u h).
  Definition gprolong (ga : nat -> option nat) (x : nat -> R) (g : nat) : R := match ga g with Some J => x J * damp | None => r0 end.
  Definition grestrict (ga : nat -> option nat) (r : nat -> R) (I : nat) : R := sum G (fun g => gprol ga g I * r g).
  (** k steps of u := u + S(d - A u) *)
  Fixpoint grelax (GA : nat -> nat -> R) (S : (nat -> R) -> (nat -> R) -> Prop) (k : nat) (d u u' : nat -> R) : Prop :=
    match k with 0 => forall g, u' g = u g | Datatypes.S k' => exists w, S (gres GA d u) w /\ grelax GA S k' d (fun g => u g + w g) u' end.
  Fixpoint gcycle (ls : list glevel) (d u : nat -> R) : Prop :=
    match ls with
    | nil => gsolve d u
    | l :: ls' => exists u1 x, grelax (g_A l) (g_pre l) preSteps d (fun _ => r0) u1 /\
        let r := grestrict (g_ga l) (gres (g_A l) d u1) in
        match ls' with
        | nil => match gamma with 0 => forall g, x g = r0 | _ => gcycle ls' r x end
        | l' :: _ => grelax (g_A l') (gcycle ls') gamma r (fun _ => r0) x
        end /\
        grelax (g_A l) (g_post l) postSteps d (fun g => u1 g + gprolong (g_ga l) x g) u
    end.

  (** vectors on all processes that represent a global vector: consistent, resp. as a defect (right at the owners, zero at copies) *)
  Definition defect (s : pis) (gd : nat -> R) (d : vec R) : Prop := (forall g l, In (mke g l Owner) s -> vget d l = gd g) /\ (forall g l, In (mke g l Copy) s -> vget d l = r0).
  Definition consist (sz : nat -> nat) (ix : nat -> pis) (gx : nat -> R) (x : fam) : Prop := forall p, p < P -> length (x p) = sz p /\ agrees (ix p) gx (x p).
  Definition isdefect (sz : nat -> nat) (ix : nat -> pis) (gd : nat -> R) (d : fam) : Prop := forall p, p < P -> length (d p) = sz p /\ defect (ix p) gd (d p).
  Definition fsized (sz : nat -> nat) (x : fam) : Prop := forall p, p < P -> length (x p) = sz p.
  (** smoothers and coarse solver return consistent vectors that are possible results of the global ones *)
  Definition smoother_ok (sz : nat -> nat) (ix : nat -> pis) (sm : fam -> fam -> prog fam) (S : (nat -> R) -> (nat -> R) -> Prop) : Prop :=
    forall gd v d, consist sz ix (fun _ => r0) v -> isdefect sz ix gd d -> pok (sm v d) (fun w => exists gw, S gd gw /\ consist sz ix gw w).
  Variable fl : nat -> bool.      (* the processes on which the coarse solver reports convergence *)
  Definition solver_ok : Prop :=
    forall gd v d, consist (z_sz c) (z_ix c) (fun _ => r0) v -> consist (z_sz c) (z_ix c) gd d ->
      pok (z_solve c v d) (fun r => exists gw, gsolve gd gw /\ consist (z_sz c) (z_ix c) gw (fst (fst r)) /\ fsized (z_sz c) (snd (fst r)) /\ forall p, p < P -> snd r p = fl p).
  Definition coarse_ok : Prop := dist_wf P (z_sz c) (z_ix c) /\ unique_owner P (z_ix c) /\
    (forall q g l a, q < P -> holds (z_ix c) q g l a -> g < G /\ exists p l', p < P /\ holds (z_ix c) p g l' Owner) /\ (forall p l, p < P -> l < z_sz c p -> exists g a, holds (z_ix c) p g l a) /\ solver_ok.
  (** levels as C74 builds them *)
  Fixpoint hier_ok (ls : list plevel) (gs : list glevel) : Prop :=
    match ls, gs with
    | nil, nil => coarse_ok
    | l :: ls', g :: gs' => level_ok P G (v_sz l) (v_ix l) (g_A g) (v_A l) /\ published P (v_ix l) (next_ix ls') (v_agg l) /\ global_aggregates P (v_ix l) (next_ix ls') (v_agg l) (g_ga g) /\
        smoother_ok (v_sz l) (v_ix l) (v_pre l) (g_pre g) /\ smoother_ok (v_sz l) (v_ix l) (v_post l) (g_post g) /\ hier_ok ls' gs'
    | _, _ => False
    end.
  Fixpoint pshape (ls : list plevel) (st : list pst) : Prop :=
    match ls, st with
    | nil, [s] => fsized (z_sz c) (s_lhs s) /\ fsized (z_sz c) (s_rhs s) /\ fsized (z_sz c) (s_upd s)
    | l :: ls', s :: st' => (fsized (v_sz l) (s_lhs s) /\ fsized (v_sz l) (s_rhs s) /\ fsized (v_sz l) (s_upd s)) /\ pshape ls' st'
    | _, _ => False
    end.

  (** ** Lemmas *)
  Lemma isdefect_ext sz ix f g d : (forall h, f h = g h) -> isdefect sz ix f d -> isdefect sz ix g d.
  Proof. intros E H p Hp. destruct (H p Hp) as (L & D1 & D2). split; auto. split; auto. intros h l HI. rewrite <- E. auto. Qed.
  Lemma consist_ext sz ix f g x : (forall h, f h = g h) -> consist sz ix f x -> consist sz ix g x.
  Proof. intros E H p Hp. destruct (H p Hp) as (L & D). split; auto. intros h l a HI. rewrite <- E. eauto. Qed.
  Lemma consist_sized sz ix f x : consist sz ix f x -> fsized sz x.
  Proof. intros H p Hp. apply (H p Hp). Qed.
  Lemma isdefect_sized sz ix f x : isdefect sz ix f x -> fsized sz x.
  Proof. intros H p Hp. apply (H p Hp). Qed.
  Lemma fzero_sized sz x : fsized sz x -> fsized sz (fzero x).
  Proof. intros H p Hp. unfold fzero, Amg.setzero. rewrite map_length. auto. Qed.
  Lemma fzero_get x p l : vget (fzero x p) l = r0.
  Proof. unfold fzero, Amg.setzero, vget. apply (map_nth (fun _ => r0) (x p) r0). Qed.
  Lemma fzero_consist sz ix x : fsized sz x -> consist sz ix (fun _ => r0) (fzero x).
  Proof. intros H p Hp. split; [apply fzero_sized; auto|]. intros g l a _. apply fzero_get. Qed.
  Lemma bound sz ix p g l a : dist_wf P sz ix -> p < P -> holds ix p g l a -> l < sz p.
  Proof. intros HW Hp H. destruct (HW p Hp) as (_ & _ & F). rewrite Forall_forall in F. apply (F _ H). Qed.
  Lemma fplus_consist sz ix f g x y : dist_wf P sz ix -> consist sz ix f x -> consist sz ix g y -> consist sz ix (fun h => f h + g h) (fplus x y).
  Proof.
    intros HW H1 H2 p Hp. destruct (H1 p Hp) as [L1 A1], (H2 p Hp) as [L2 A2]. unfold fplus. rewrite (Amg.pluseq_eq (sz p)) by auto. split; [apply Amg.vecf_length|].
    intros h l a HI. unfold Amg.vadd. rewrite Amg.vecf_get by (apply (bound sz ix p h l a HW Hp HI)). rewrite (A1 h l a HI), (A2 h l a HI). reflexivity.
  Qed.
  Lemma nocopy sz ix p g l : dist_wf P sz ix -> p < P -> holds ix p g l Owner -> forall g', ~ In (mke g' l Copy) (ix p).
  Proof. intros HW Hp H g' H'. destruct (local_inj P sz ix p HW Hp g l Owner g' Copy H H') as [_ E]. discriminate. Qed.
  Lemma fproject_spec sz ix f x : dist_wf P sz ix -> isdefect sz ix f x -> pok (fproject ix x) (isdefect sz ix f).
  Proof.
    intros HW H. apply (pok_each [] _ (fun p y => length y = sz p /\ defect (ix p) f y)). intros p Hp. destruct (H p Hp) as (L & D1 & D2). destruct (project_spec (sz p) (ix p) (x p) (HW p Hp) L) as (y & E & Ly & V1 & V2). exists y. split; auto. split; auto. split; auto.
    intros g l HI. rewrite V2 by (apply (nocopy sz ix p g l HW Hp HI)). auto.
  Qed.
  Lemma local_product sz ix GA A gl lhs p g l : level_ok P G sz ix GA A -> consist sz ix gl lhs -> p < P -> holds ix p g l Owner -> sum (sz p) (fun j => den (A p) l j * vget (lhs p) j) = sum G (fun h => GA g h * gl h).
  Proof.
    intros (HW & HU & HO & HF & HR) HC Hp HI. destruct (HC p Hp) as [_ X]. destruct (HR p Hp) as [M1 M2]. destruct (M2 g l HI) as [M3 M4]. apply (sum_by_index (sz p) G (ix p)); [apply HW; auto| | | |].
    - apply Forall_forall. intros [h k a] H. apply (HO p h k a Hp H).
    - intros h k a H. rewrite (M3 h k a H), (X h k a H). reflexivity.
    - intros k Hk Hn. exfalso. destruct (HF p k Hp Hk) as (h & a & H). apply (Hn h a H).
    - intros h Hh Hn. rewrite (M4 h Hh) by (intros k a H; apply (Hn k a H)). ncring.
  Qed.
  Lemma updateDefect_spec l GA gl gr lhs rhs : level_ok P G (v_sz l) (v_ix l) GA (v_A l) -> consist (v_sz l) (v_ix l) gl lhs -> isdefect (v_sz l) (v_ix l) gr rhs ->
    pok (updateDefect l lhs rhs) (isdefect (v_sz l) (v_ix l) (gres GA gr gl)).
  Proof.
    intros HL HC HD. pose proof HL as (HW & HU & HO & HF & HR). apply (pok_each [] _ (fun p y => length y = v_sz l p /\ defect (v_ix l p) (gres GA gr gl) y)). intros p Hp. destruct (HC p Hp) as [LX X]. destruct (HD p Hp) as (LY & D1 & D2). destruct (HR p Hp) as [M1 _].
    unfold oschwarz_applyscaleadd. destruct (C09_products (v_sz l p) (v_sz l p) (v_A l p) (lhs p) (rhs p) M1 LX LY) as [_ [_ [_ HS]]]. destruct (HS (- r1)) as [L1 V1]. destruct (project_spec (v_sz l p) (v_ix l p) _ (HW p Hp) L1) as (y & E & L & P1 & P2).
    exists y. split; [exact E|]. split; auto. split; [|intros g k HI; apply (P1 g k HI)]. intros g k HI. rewrite P2 by (apply (nocopy _ _ p g k HW Hp HI)). rewrite V1 by (apply (bound _ _ p g k Owner HW Hp HI)).
    rewrite (local_product _ _ _ _ _ _ p g k HL HC Hp HI), (D1 g k HI). unfold gres. ncring.
  Qed.
  Lemma comm_spec sz ix gx d : dist_wf P sz ix -> unique_owner P ix -> (forall q g l a, q < P -> holds ix q g l a -> g < G /\ exists p l', p < P /\ holds ix p g l' Owner) ->
    fsized sz d -> (forall p g l, p < P -> holds ix p g l Owner -> vget (d p) l = gx g) -> pok (comm ix d) (consist sz ix gx).
  Proof.
    intros HW HU HO HS HX. split.
    - destruct (C31_safe (@r0 R) P sz ix HW None d HS Logic.I (fun _ v => v) ownerSet allSet (start d)) as (_ & _ & d1 & H); [constructor|]. exists (Ok d1), d1. auto.
    - intros o (d1 & H & ->). exists d1. split; auto. destruct (C31_in_place (@r0 R) P sz ix HW d d1 HU HS H) as (S1 & C1 & C2 & _). intros p Hp. split; auto. intros g l a HI. destruct (HO p g l a Hp HI) as (_ & q & l' & Hq & Hh).
      unfold vget. rewrite (C1 q p g l l' a Hq Hp Hh HI), (C2 q g l' Hq Hh). apply (HX q g l' Hq Hh).
  Qed.
  Lemma gres_add GA d u e g : gres GA (gres GA d u) e g = gres GA d (fun h => u h + e h) g.
  Proof.
    unfold gres. rewrite (sum_ext G (fun h => GA g h * (u h + e h)) (fun h => GA g h * u h + GA g h * e h)) by (intros; ncring). rewrite sum_add. ncring.
  Qed.
  Lemma gres_zero GA d g : gres GA d (fun _ => r0) g = d g.
  Proof. unfold gres. rewrite (sum_zero G (fun h => GA g h * r0)) by (intros; ncring). ncring. Qed.

  (** ** Smoothing *)
  Section Smooth.
    Variables (l : plevel) (g : glevel).
    Hypothesis HL : level_ok P G (v_sz l) (v_ix l) (g_A g) (v_A l).
    Hypothesis HPre : smoother_ok (v_sz l) (v_ix l) (v_pre l) (g_pre g).
    Hypothesis HPost : smoother_ok (v_sz l) (v_ix l) (v_post l) (g_post g).
    Lemma ppresmooth_spec c0 d k : forall u s, fsized (v_sz l) (s_lhs s) -> isdefect (v_sz l) (v_ix l) (gres (g_A g) d u) (s_rhs s) -> consist (v_sz l) (v_ix l) (fun h => c0 h + u h) (s_upd s) ->
      pok (ppresmooth l k s) (fun s' => fsized (v_sz l) (s_lhs s') /\ exists u', grelax (g_A g) (g_pre g) k d u u' /\ isdefect (v_sz l) (v_ix l) (gres (g_A g) d u') (s_rhs s') /\ consist (v_sz l) (v_ix l) (fun h => c0 h + u' h) (s_upd s')).
    Proof.
      induction k as [|k IH]; intros u s HS HD HU; cbn [ppresmooth].
      - apply pok_ret. split; auto. exists u. cbn [grelax]. auto.
      - pose proof HL as (HW & _). eapply pok_bind; [apply (HPre _ _ _ (fzero_consist _ (v_ix l) _ HS) HD)|]. cbn beta. intros w (gw & Hw & Cw).
        eapply pok_bind; [apply (updateDefect_spec l (g_A g) gw _ w (s_rhs s) HL Cw HD)|]. intros r Hr. eapply pok_bind; [apply (fproject_spec _ _ _ r HW Hr)|]. intros r' Hr'.
        eapply pok_weaken; [apply (IH (fun h => u h + gw h))|]; cbn [s_lhs s_rhs s_upd].
        + eapply consist_sized; eauto.
        + eapply isdefect_ext; [|exact Hr']. intros h. apply gres_add.
        + eapply consist_ext; [|apply (fplus_consist _ _ _ _ _ _ HW HU Cw)]. intros h. cbn beta. ncring.
        + intros s' (S1 & u' & G1 & G2 & G3). split; auto. exists u'. split; auto. cbn [grelax]. exists gw. auto.
    Qed.
    Lemma ppostsmooth_spec c0 d k : forall u gl gr s, consist (v_sz l) (v_ix l) gl (s_lhs s) -> isdefect (v_sz l) (v_ix l) gr (s_rhs s) -> (forall h, gres (g_A g) gr gl h = gres (g_A g) d u h) -> consist (v_sz l) (v_ix l) (fun h => c0 h + u h) (s_upd s) ->
      pok (ppostsmooth l k s) (fun s' => exists u' gl' gr', grelax (g_A g) (g_post g) k d u u' /\ consist (v_sz l) (v_ix l) gl' (s_lhs s') /\ isdefect (v_sz l) (v_ix l) gr' (s_rhs s') /\ (forall h, gres (g_A g) gr' gl' h = gres (g_A g) d u' h) /\
        consist (v_sz l) (v_ix l) (fun h => c0 h + u' h) (s_upd s')).
    Proof.
      induction k as [|k IH]; intros u gl gr s HC HD HE HU; cbn [ppostsmooth].
      - apply pok_ret. exists u, gl, gr. cbn [grelax]. auto.
      - pose proof HL as (HW & _). eapply pok_bind; [apply (updateDefect_spec l (g_A g) gl gr _ _ HL HC HD)|]. intros r Hr. eapply pok_bind; [apply (fproject_spec _ _ _ r HW Hr)|]. intros r' Hr'. apply (isdefect_ext _ _ _ _ _ HE) in Hr'.
        eapply pok_bind; [apply (HPost _ _ _ (fzero_consist _ (v_ix l) _ (consist_sized _ _ _ _ HC)) Hr')|]. cbn beta. intros w (gw & Hw & Cw).
        eapply pok_weaken; [apply (IH (fun h => u h + gw h) gw (gres (g_A g) d u))|]; cbn [s_lhs s_rhs s_upd]; auto.
        + intros h. apply gres_add.
        + eapply consist_ext; [|apply (fplus_consist _ _ _ _ _ _ HW HU Cw)]. intros h. cbn beta. ncring.
        + intros s' (u' & gl' & gr' & G1 & G2). exists u', gl', gr'. split; auto. cbn [grelax]. exists gw. auto.
    Qed.
  End Smooth.

  (** ** The cycle *)
  Lemma hier_next ls gs : hier_ok ls gs -> dist_wf P (next_sz ls) (next_ix ls) /\ unique_owner P (next_ix ls) /\
    (forall q g l a, q < P -> holds (next_ix ls) q g l a -> g < G /\ exists p l', p < P /\ holds (next_ix ls) p g l' Owner) /\ (forall p l, p < P -> l < next_sz ls p -> exists g a, holds (next_ix ls) p g l a).
  Proof.
    destruct ls as [|l ls], gs as [|g gs]; cbn [hier_ok]; try contradiction.
    - intros (H1 & H2 & H3 & H4 & _). auto.
    - intros ((H1 & H2 & H3 & H4 & _) & _). auto.
  Qed.
  Lemma pshape_head ls st : pshape ls st -> exists s rest, st = s :: rest /\ fsized (next_sz ls) (s_lhs s) /\ fsized (next_sz ls) (s_rhs s) /\ fsized (next_sz ls) (s_upd s).
  Proof.
    destruct ls as [|l ls]; cbn [pshape].
    - destruct st as [|s [|s' st]]; try contradiction. intros H. exists s, nil. auto.
    - destruct st as [|s st]; try contradiction. intros [H _]. exists s, st. auto.
  Qed.
  Lemma pshape_replace ls s s' rest : pshape ls (s :: rest) -> fsized (next_sz ls) (s_lhs s') -> fsized (next_sz ls) (s_rhs s') -> fsized (next_sz ls) (s_upd s') -> pshape ls (s' :: rest).
  Proof.
    destruct ls as [|l ls]; cbn [pshape next_sz].
    - destruct rest; auto.
    - intros [_ H] H1 H2 H3. auto.
  Qed.
  (** is the coarse solver called? *)
  Definition visited (ls : list plevel) : bool := match ls with nil => true | _ => negb (gamma =? 0) end.
  (** the flag of process p after the cycle *)
  Definition outflag (ls : list plevel) (conv : nat -> bool) (p : nat) : bool := conv p && (negb (visited ls) || fl p).
  Definition mg_post (ls : list plevel) (gs : list glevel) (d c0 : nat -> R) (conv : nat -> bool) (r : list pst * (nat -> bool)) : Prop :=
    (forall p, p < P -> snd r p = outflag ls conv p) /\ pshape ls (fst r) /\
    match fst r with
    | nil => False
    | s' :: _ => exists e, gcycle gs d e /\ consist (next_sz ls) (next_ix ls) (fun h => c0 h + e h) (s_upd s') /\
        match gs with nil => True | g :: _ => exists gl gr, consist (next_sz ls) (next_ix ls) gl (s_lhs s') /\ isdefect (next_sz ls) (next_ix ls) gr (s_rhs s') /\ forall h, gres (g_A g) gr gl h = gres (g_A g) d e h end
    end.
  Definition mg_spec (ls : list plevel) (gs : list glevel) (f : list pst -> (nat -> bool) -> prog (list pst * (nat -> bool))) : Prop :=
    forall d c0 s rest conv, pshape ls (s :: rest) -> isdefect (next_sz ls) (next_ix ls) d (s_rhs s) -> consist (next_sz ls) (next_ix ls) c0 (s_upd s) -> (ls = nil -> forall h, c0 h = r0) ->
      pok (f (s :: rest) conv) (mg_post ls gs d c0 conv).

  Lemma flag_0 l ls conv p : gamma = 0 -> outflag (l :: ls) conv p = conv p.
  Proof. intros E. unfold outflag, visited. rewrite E. apply andb_true_r. Qed.
  Lemma flag_S l ls ls' conv p : gamma <> 0 -> outflag (l :: ls) conv p = outflag ls' conv p.
  Proof. intros E. unfold outflag, visited. apply Nat.eqb_neq in E. destruct ls'; rewrite E; reflexivity. Qed.
  Lemma flag_twice ls conv cv p : cv p = outflag ls conv p -> outflag ls cv p = outflag ls conv p.
  Proof. unfold outflag. intros ->. destruct (conv p), (negb (visited ls)), (fl p); reflexivity. Qed.
  Lemma pgloop_spec l ls' g gs' f : hier_ok (l :: ls') (g :: gs') -> mg_spec (l :: ls') (g :: gs') f -> forall r k u s rest conv, pshape (l :: ls') (s :: rest) ->
    isdefect (v_sz l) (v_ix l) (gres (g_A g) r u) (s_rhs s) -> consist (v_sz l) (v_ix l) u (s_upd s) ->
    pok (pgloop f (Some l) k (s :: rest) conv) (fun o => (forall p, p < P -> snd o p = if k =? 0 then conv p else outflag (l :: ls') conv p) /\ pshape (l :: ls') (fst o) /\ exists x s' rest', fst o = s' :: rest' /\ grelax (g_A g) (gcycle (g :: gs')) k r u x /\ consist (v_sz l) (v_ix l) x (s_upd s')).
  Proof.
    intros HH HF r. pose proof HH as (HL & _). induction k as [|k IH]; intros u s rest conv HS HD HU; cbn [pgloop].
    - apply pok_ret. cbn [fst snd]. split; auto. split; auto. exists u, s, rest. split; auto. split; [|auto]. cbn [grelax]. reflexivity.
    - eapply pok_bind; [apply (HF (gres (g_A g) r u) u s rest conv HS HD HU); discriminate|]. intros [st1 cv1] (Q1 & Q2 & Q3). cbn [fst snd] in *. destruct st1 as [|s1 rest1]; [contradiction|]. destruct Q3 as (e & E1 & E2 & gl & gr & E3 & E4 & E5). cbn [next_sz next_ix] in *.
      assert (E6 : forall h, gres (g_A g) gr gl h = gres (g_A g) r (fun h => u h + e h) h) by (intros h; rewrite E5; apply gres_add).
      destruct k as [|k].
      + apply pok_ret. cbn [fst snd]. split; auto. split; auto. exists (fun h => u h + e h), s1, rest1. split; auto. split; auto. cbn [grelax]. exists e. split; auto.
      + eapply pok_bind; [apply (updateDefect_spec l (g_A g) gl gr _ _ HL E3 E4)|]. intros rhs Hr. apply (isdefect_ext _ _ _ _ _ E6) in Hr.
        eapply pok_weaken; [apply (IH (fun h => u h + e h) (mkpst (s_lhs s1) rhs (s_upd s1)) rest1 cv1)|]; cbn [s_lhs s_rhs s_upd]; auto.
        * destruct Q2 as [(S1 & S2 & S3) S4]. split; auto. split; auto. split; auto. eapply isdefect_sized; eauto.
        * intros o (O1 & O2 & x & s' & rest' & O3 & O4 & O5). split; [intros p Hp; rewrite O1 by auto; cbn [Nat.eqb]; apply flag_twice; apply Q1; auto|]. split; auto. exists x, s', rest'. split; auto. split; auto. change (exists w, gcycle (g :: gs') (gres (g_A g) r u) w /\ grelax (g_A g) (gcycle (g :: gs')) (S k) r (fun h => u h + w h) x). exists e. auto.
  Qed.

  Lemma forallb_ext_in {X} (f g : X -> bool) l : (forall x, In x l -> f x = g x) -> forallb f l = forallb g l.
  Proof. induction l as [|x l IH]; intros H; cbn [forallb]; auto. rewrite (H x (or_introl eq_refl)). f_equal. apply IH. intros y Hy. apply H. right; auto. Qed.
  Lemma pmgc_gen ls : forall gs finest, hier_ok ls gs ->
    forall d c0 s rest conv, pshape ls (s :: rest) -> isdefect (next_sz ls) (next_ix ls) d (s_rhs s) -> consist (next_sz ls) (next_ix ls) c0 (s_upd s) -> (ls = nil -> forall h, c0 h = r0) ->
      if finest && negb (length ls =? 0) && negb (forallb (outflag ls conv) (seq 0 P)) then pthrows (pmgc ls finest (s :: rest) conv) EMath else pok (pmgc ls finest (s :: rest) conv) (mg_post ls gs d c0 conv).
  Proof.
    induction ls as [|l ls IH]; intros gs finest HH d c0 s rest conv HS HD HU H0.
    - destruct gs as [|g gs]; [|contradiction]. destruct rest as [|? ?]; [|contradiction HS]. cbn [length Nat.eqb negb]. rewrite andb_false_r. cbn [andb]. cbn [pmgc next_sz next_ix] in *. pose proof HH as (HW & HUn & HO & HF & HSo). destruct HS as (S1 & S2 & S3).
      eapply pok_bind; [apply (comm_spec (z_sz c) (z_ix c) d (s_rhs s) HW HUn HO S2); intros p g l Hp Hh; apply (HD p Hp); auto|]. intros rhs Hr.
      eapply pok_bind; [apply (HSo d (s_upd s) rhs); [apply (consist_ext _ _ c0); auto|exact Hr]|]. cbn beta. intros [[w rhs'] cv] (gw & Q1 & Q2 & Q3 & Q4). cbn [fst snd] in *. apply pok_ret. split; [|split]; cbn [fst snd].
      + intros p Hp. rewrite Q4 by auto. reflexivity.
      + cbn [pshape s_lhs s_rhs s_upd]. split; auto. split; auto. eapply consist_sized; eauto.
      + exists gw. split; [exact Q1|]. split; auto. cbn [s_upd next_sz next_ix]. eapply consist_ext; [|exact Q2]. intros h. rewrite H0 by auto. ncring.
    - destruct gs as [|g gs]; [contradiction|]. pose proof HH as (HL & HP & HG & HPre & HPost & HN). destruct HS as [(S1 & S2 & S3) S4]. destruct (pshape_head ls rest S4) as (s1 & rest' & -> & T1 & T2 & T3). cbn [next_sz next_ix] in HD, HU.
      destruct (hier_next ls gs HN) as (WC & UC & CO & CF). pose proof HL as (HW & _). cbn [pmgc length Nat.eqb negb]. rewrite andb_true_r. set (bb := finest && negb (forallb (outflag (l :: ls) conv) (seq 0 P))).
      eapply pgen_bind; [apply (ppresmooth_spec l g HL HPre c0 d preSteps (fun _ => r0) s S1)|].
      { eapply isdefect_ext; [|exact HD]. intros h. rewrite gres_zero. reflexivity. }
      { eapply consist_ext; [|exact HU]. intros h. cbn beta. ncring. }
      cbn beta. intros s2 (Q1 & u1 & Q2 & Q3 & Q4).
      eapply (pgen_bind _ _ _ (isdefect (next_sz ls) (next_ix ls) (grestrict (g_ga g) (gres (g_A g) d u1)))).
      { apply (pok_each [] _ (fun p y => length y = next_sz ls p /\ defect (next_ix ls p) (grestrict (g_ga g) (gres (g_A g) d u1)) y)). intros p Hp. destruct (Q3 p Hp) as (L & D1 & D2). destruct (C74_restrict P G (v_sz l) (v_ix l) (g_A g) (v_A l) HL (next_sz ls) (next_ix ls) (v_agg l) WC UC HP (g_ga g) HG p (s_rhs s1 p) (s_rhs s2 p) (gres (g_A g) d u1) Hp (T2 p Hp) L D1) as (y & Y1 & Y2 & Y3 & Y4 & _).
        exists y. split; auto. split; auto. split; auto. }
      intros rhs1 Hr1. set (r := grestrict (g_ga g) (gres (g_A g) d u1)) in *.
      eapply (pgen_bind _ _ _ (fun o => (forall p, p < P -> snd o p = outflag (l :: ls) conv p) /\ pshape ls (fst o) /\ exists x s' rest'', fst o = s' :: rest'' /\ consist (next_sz ls) (next_ix ls) x (s_upd s') /\
        match gs with nil => match gamma with 0 => forall h, x h = r0 | _ => gcycle gs r x end | g' :: _ => grelax (g_A g') (gcycle gs) gamma r (fun _ => r0) x end)).
      { assert (SH : pshape ls (mkpst (s_lhs s1) rhs1 (fzero (s_upd s1)) :: rest')). { apply (pshape_replace ls s1); cbn [s_lhs s_rhs s_upd]; auto; [eapply isdefect_sized; eauto|apply fzero_sized; auto]. }
        destruct ls as [|l' ls'].
        - destruct gs as [|g' gs]; [|contradiction]. cbn [hd_error next_sz next_ix] in *. destruct gamma as [|k] eqn:EG; cbn [pgloop].
          + apply pok_ret. cbn [fst snd]. split; [intros p Hp; rewrite flag_0; auto|]. split; auto. exists (fun _ => r0), (mkpst (s_lhs s1) rhs1 (fzero (s_upd s1))), rest'. split; auto. split; auto. apply fzero_consist; auto.
          + eapply pok_bind; [apply (IH nil false HN r (fun _ => r0) (mkpst (s_lhs s1) rhs1 (fzero (s_upd s1))) rest' conv); cbn [s_lhs s_rhs s_upd next_sz next_ix]; auto; apply fzero_consist; auto|].
            intros o (O1 & O2 & O3). apply pok_ret. split; [intros p Hp; rewrite O1 by auto; symmetry; apply flag_S; lia|]. split; auto. destruct (fst o) as [|s' rest'']; [contradiction|]. destruct O3 as (e & O4 & O5 & _). exists e, s', rest''. split; auto. split; auto. eapply consist_ext; [|exact O5]. intros h. cbn beta. ncring.
        - destruct gs as [|g' gs]; [contradiction|]. cbn [hd_error]. eapply pok_weaken; [apply (pgloop_spec l' ls' g' gs _ HN (IH _ false HN) r gamma (fun _ => r0)); cbn [s_lhs s_rhs s_upd]; auto|].
          + eapply isdefect_ext; [|exact Hr1]. intros h. rewrite gres_zero. reflexivity.
          + apply fzero_consist; auto.
          + intros o (O1 & O2 & x & s' & rest'' & O3 & O4 & O5). split; [intros p Hp; rewrite O1 by auto; destruct (Nat.eqb_spec gamma 0); [rewrite flag_0 by auto; reflexivity|symmetry; apply flag_S; auto]|]. split; auto. exists x, s', rest''. auto. }
      cbn beta. intros [st1 cv] (O1 & O2 & x & s1' & rest'' & O3 & O4 & O5). cbn [fst snd] in *. subst st1.
      assert (HX : snd (s1' :: rest'', cv) = cv) by reflexivity. clear HX.
      eapply (pgen_bind _ _ _ (fun cf => consist (v_sz l) (v_ix l) (gprolong (g_ga g) x) (fun p => snd (cf p)) /\ fsized (next_sz ls) (fun p => fst (cf p)))).
      { assert (Z : consist (v_sz l) (v_ix l) (fun _ => r0) (fzero (s_lhs s2))) by (apply fzero_consist; auto).
        eapply pok_weaken; [apply (pok_each _ _ (fun p cf => length (snd cf) = v_sz l p /\ agrees (v_ix l p) (gprolong (g_ga g) x) (snd cf) /\ length (fst cf) = next_sz ls p))|].
        - intros p Hp. destruct (O4 p Hp) as [Lc Ac]. destruct (Z p Hp) as [Lz Az].
          destruct (C74_prolongate P G (v_sz l) (v_ix l) (g_A g) (v_A l) HL (next_sz ls) (next_ix ls) (v_agg l) WC HP (g_ga g) HG p (s_upd s1' p) (fzero (s_lhs s2) p) damp x (fun _ => r0) Hp Lc Lz Ac Az) as (cc & ff & Y1 & Y2 & Y3 & Y4).
          exists (cc, ff). split; auto. cbn [fst snd]. split; auto. split.
          + intros h k a HI. rewrite (Y4 h k a HI). unfold gprolong. destruct (g_ga g h); ncring.
          + unfold prolongate_parallel in Y1. destruct (C34_prolongate (v_agg l p) (v_sz l p) (s_upd s1' p) (fzero (s_lhs s2) p) damp Lz) as (c2 & f2 & Y5 & _ & Y6 & _); [rewrite Lc; apply (agg_ok_all P G (v_sz l) (v_ix l) (g_A g) (v_A l) HL (next_sz ls) (next_ix ls) (v_agg l) WC HP p Hp)|]. rewrite Y1 in Y5. injection Y5 as <- <-. congruence.
        - intros cf H. split; intros p Hp; [destruct (H p Hp) as (H1 & H2 & _); auto|destruct (H p Hp) as (_ & _ & H3); auto]. }
      cbn beta. intros cf [F1 F2]. assert (AL : forallb cv (seq 0 P) = forallb (outflag (l :: ls) conv) (seq 0 P)). { apply forallb_ext_in. intros p Hp. apply in_seq in Hp. apply O1. lia. }
      rewrite AL. fold bb. destruct bb eqn:EB; [apply pthrows_now|].
      eapply pok_bind; [apply (ppostsmooth_spec l g HL HPost c0 d postSteps (fun h => u1 h + gprolong (g_ga g) x h) (gprolong (g_ga g) x) (gres (g_A g) d u1)); cbn [s_lhs s_rhs s_upd]|].
      { exact F1. }
      { exact Q3. }
      { intros h. apply gres_add. }
      { eapply consist_ext; [|apply (fplus_consist _ _ _ _ _ _ HW Q4 F1)]. intros h. cbn beta. ncring. }
      cbn beta. intros s3 (u & gl & gr & G1 & G2 & G3 & G4 & G5). apply pok_ret. split; [|split]; cbn [fst snd].
      + intros p Hp. destruct finest; auto. unfold bb in EB. apply negb_false_iff in EB. rewrite EB. rewrite forallb_forall in EB. symmetry. apply EB. apply in_seq. lia.
      + split; [split; [eapply consist_sized; eauto|split; [eapply isdefect_sized; eauto|eapply consist_sized; eauto]]|]. apply (pshape_replace ls s1'); cbn [s_lhs s_rhs s_upd]; auto; destruct (pshape_head ls _ O2) as (sh & rh & EQ & W1 & W2 & W3); injection EQ as <- <-; auto.
      + exists u. split; [|split].
        * cbn [gcycle]. exists u1, x. split; auto.
        * exact G5.
        * exists gl, gr. auto.
  Qed.

  Lemma pmgc_spec ls gs : hier_ok ls gs -> mg_spec ls gs (pmgc ls false).
  Proof. intros HH d c0 s rest conv HS HD HU H0. apply (pmgc_gen ls gs false HH d c0 s rest conv HS HD HU H0). Qed.

  Lemma apply_gen ls gs st conv v d gd : hier_ok ls gs -> pshape ls st -> fsized (next_sz ls) v -> isdefect (next_sz ls) (next_ix ls) gd d ->
    if negb (length ls =? 0) && negb (forallb (outflag ls conv) (seq 0 P)) then pthrows (pamg_apply ls st conv v d) EMath else
    pok (pamg_apply ls st conv v d) (fun o => (exists gu, gcycle gs gd gu /\ consist (next_sz ls) (next_ix ls) gu (fst (fst o))) /\ pshape ls (snd (fst o)) /\ forall p, p < P -> snd o p = outflag ls conv p).
  Proof.
    intros HH HS HV HD. destruct (pshape_head ls st HS) as (s & rest & -> & S1 & S2 & S3). cbn [pamg_apply]. destruct (hier_next ls gs HH) as (WC & UC & CO & CF).
    assert (PS : pshape ls (mkpst v d (fzero (s_upd s)) :: rest)) by (apply (pshape_replace ls s); cbn [s_lhs s_rhs s_upd]; auto; [eapply isdefect_sized; eauto|apply fzero_sized; auto]).
    pose proof (pmgc_gen ls gs true HH gd (fun _ => r0) (mkpst v d (fzero (s_upd s))) rest conv PS HD (fzero_consist _ _ _ S3) (fun _ _ => eq_refl)) as GEN. cbn [andb] in GEN.
    destruct (negb (length ls =? 0) && negb (forallb (outflag ls conv) (seq 0 P))); [apply pthrows_bind_l; exact GEN|].
    eapply pok_bind; [exact GEN|]. cbn beta.
    intros o (O1 & O2 & O3). destruct o as [st1 cv]. cbn [fst snd] in *. destruct st1 as [|s' rest']; [contradiction|]. destruct O3 as (e & E1 & E2 & _).
    assert (E3 : consist (next_sz ls) (next_ix ls) e (s_upd s')) by (eapply consist_ext; [|exact E2]; intros h; cbn beta; ncring).
    destruct ((postSteps =? 0) || (length ls =? 0)).
    + eapply pok_bind; [apply (comm_spec (next_sz ls) (next_ix ls) e (s_upd s') WC UC CO); [eapply consist_sized; eauto|intros p g l Hp Hh; apply (proj2 (E3 p Hp) g l Owner Hh)]|]. intros u Hu. apply pok_ret. cbn [fst snd]. split; [exists e; auto|]. split; auto.
      apply (pshape_replace ls s'); cbn [s_lhs s_rhs s_upd]; auto; destruct (pshape_head ls _ O2) as (sh & rh & EQ & W1 & W2 & W3); injection EQ as <- <-; auto. eapply consist_sized; eauto.
    + apply pok_ret. cbn [fst snd]. split; [exists e; auto|]. auto.
  Qed.
  (** C75: AMG::apply on all processes runs without failure, and in every order of messages its result is, on every process and at every index, that of the textbook cycle on the global defect *)
  Theorem C75_apply ls gs st conv v d gd : hier_ok ls gs -> pshape ls st -> (forall p, p < P -> conv p = true) -> (forall p, p < P -> fl p = true) -> fsized (next_sz ls) v -> isdefect (next_sz ls) (next_ix ls) gd d ->
    pok (pamg_apply ls st conv v d) (fun o => (exists gu, gcycle gs gd gu /\ consist (next_sz ls) (next_ix ls) gu (fst (fst o))) /\ pshape ls (snd (fst o)) /\ forall p, p < P -> snd o p = true).
  Proof.
    intros HH HS HC HF HV HD. pose proof (apply_gen ls gs st conv v d gd HH HS HV HD) as GEN.
    assert (OF : forall p, p < P -> outflag ls conv p = true) by (intros p Hp; unfold outflag; rewrite HC, HF by auto; apply orb_true_r).
    replace (forallb (outflag ls conv) (seq 0 P)) with true in GEN by (symmetry; apply forallb_forall; intros p Hp; apply in_seq in Hp; apply OF; lia). cbn [negb] in GEN. rewrite andb_false_r in GEN.
    eapply pok_weaken; [exact GEN|]. cbn beta. intros o (O1 & O2 & O3). split; auto. split; auto. intros p Hp. rewrite O3 by auto. auto.
  Qed.
  (** C75: with more than one level, if the coarse solver does not converge on one process, in this call or an earlier one, MathError is thrown (on all processes: the flags are combined) *)
  Theorem C75_throws ls gs st conv v d gd p : hier_ok ls gs -> pshape ls st -> fsized (next_sz ls) v -> isdefect (next_sz ls) (next_ix ls) gd d -> ls <> nil -> p < P -> conv p = false \/ (gamma <> 0 /\ fl p = false) ->
    pthrows (pamg_apply ls st conv v d) EMath.
  Proof.
    intros HH HS HV HD HN Hp HB. pose proof (apply_gen ls gs st conv v d gd HH HS HV HD) as GEN. destruct ls as [|l ls]; [congruence|].
    assert (OF : outflag (l :: ls) conv p = false). { destruct HB as [HB|[HB1 HB2]]; [unfold outflag; rewrite HB; reflexivity|]. rewrite (flag_S l ls nil) by auto. unfold outflag. rewrite HB2. cbn. apply andb_false_r. }
    destruct (forallb (outflag (l :: ls) conv) (seq 0 P)) eqn:EF; [|exact GEN]. rewrite forallb_forall in EF. rewrite EF in OF by (apply in_seq; lia). discriminate.
  Qed.
  (** Deviation: with one level a coarse solver that does not converge goes unnoticed: the call returns normally *)
  Theorem C75_single_level_refuted st conv v d gd : hier_ok nil nil -> pshape nil st -> fsized (z_sz c) v -> isdefect (z_sz c) (z_ix c) gd d -> (forall p, p < P -> fl p = false) ->
    pok (pamg_apply nil st conv v d) (fun o => exists gu, gsolve gd gu /\ consist (z_sz c) (z_ix c) gu (fst (fst o))).
  Proof. intros HH HS HV HD HF. eapply pok_weaken; [exact (apply_gen nil nil st conv v d gd HH HS HV HD)|]. cbn beta. intros o (O1 & _). exact O1. Qed.

  (** C75 (consensus): if the coarse solver has not converged on one process, in this call or an earlier one, the call does not return on any process *)
  Lemma pgloop_flags (f : list pst -> (nat -> bool) -> prog (list pst * (nat -> bool))) (cf0 : nat -> bool) (vis : bool) next p : (forall st conv r, f st conv (Ok r) -> snd r p = true -> conv p = true /\ (vis = true -> cf0 p = true)) ->
    forall k st conv r, pgloop f next k st conv (Ok r) -> snd r p = true -> conv p = true /\ (k <> 0 -> vis = true -> cf0 p = true).
  Proof.
    intros HF. induction k as [|k IH]; intros st conv r H Hp; cbn [pgloop] in H.
    - injection H as ->. split; auto; lia.
    - destruct H as [(x & H1 & H2)|[[_ E]|(e & _ & E)]]; try discriminate. destruct next as [l|].
      + assert (C : r = x \/ exists s rest rhs, fst x = s :: rest /\ pgloop f (Some l) k (mkpst (s_lhs s) rhs (s_upd s) :: rest) (snd x) (Ok r)).
        { destruct k; [left; injection H2; auto|]. destruct (fst x) as [|s rest]; [discriminate|]. destruct H2 as [(rhs & _ & H2)|[[_ E]|(e & _ & E)]]; try discriminate. right. exists s, rest, rhs. auto. }
        destruct C as [->|(s & rest & rhs & _ & C)]; [destruct (HF _ _ _ H1 Hp); auto|]. destruct (IH _ _ _ C Hp) as [X _]. destruct (HF _ _ _ H1 X); auto.
      + injection H2 as ->. destruct (HF _ _ _ H1 Hp); auto.
  Qed.
  Lemma pmgc_flags (cf0 : nat -> bool) : (forall v d r, z_solve c v d (Ok r) -> forall p, p < P -> snd r p = cf0 p) -> forall ls finest st conv r, pmgc ls finest st conv (Ok r) -> forall p, p < P -> snd r p = true -> conv p = true /\ (visited ls = true -> cf0 p = true).
  Proof.
    intros HZ ls. induction ls as [|l ls IH]; intros finest st conv r H p Hp Hr; cbn [pmgc] in H.
    - destruct st as [|s [|? ?]]; try discriminate. destruct H as [(rhs & _ & [(x & H1 & H2)|[[_ E]|(e & _ & E)]])|[[_ E]|(e & _ & E)]]; try discriminate. injection H2 as ->. cbn [snd] in Hr. apply andb_true_iff in Hr. destruct Hr as [Hr1 Hr2]. rewrite (HZ _ _ _ H1 p Hp) in Hr2. auto.
    - destruct st as [|s [|s1 rest]]; try discriminate. destruct H as [(s2 & _ & H)|[[_ E]|(e & _ & E)]]; try discriminate. destruct H as [(rhs1 & _ & H)|[[_ E]|(e & _ & E)]]; try discriminate. destruct H as [(x & HX & H)|[[_ E]|(e & _ & E)]]; try discriminate.
      destruct (fst x) as [|s1' rest']; [discriminate|]. destruct H as [(cf & _ & H)|[[_ E]|(e & _ & E)]]; try discriminate. cbn zeta in H. destruct (finest && negb (forallb (snd x) (seq 0 P))) eqn:EF; [discriminate|]. destruct H as [(s3 & _ & H)|[[_ E]|(e & _ & E)]]; try discriminate. injection H as ->. cbn [snd] in Hr.
      assert (HS : snd x p = true). { destruct finest; auto. rewrite forallb_forall in Hr. apply Hr. apply in_seq. lia. }
      destruct (pgloop_flags _ cf0 (visited ls) _ p (fun st0 conv0 r2 H0 => IH false st0 conv0 r2 H0 p Hp) _ _ _ _ HX HS) as [X1 X2]. split; auto. cbn [visited]. intros V. apply negb_true_iff in V. apply Nat.eqb_neq in V. apply X2; auto.
      destruct ls; cbn [visited]; auto. apply negb_true_iff. apply Nat.eqb_neq. auto.
  Qed.
  Theorem C75_consensus (cf0 : nat -> bool) ls st conv v d r p : (forall v d r, z_solve c v d (Ok r) -> forall p, p < P -> snd r p = cf0 p) -> p < P -> ls <> nil -> (conv p = false \/ (gamma <> 0 /\ cf0 p = false)) ->
    ~ pamg_apply ls st conv v d (Ok r).
  Proof.
    intros HZ Hp HL HB H. unfold pamg_apply in H. destruct st as [|s rest]; [discriminate|]. destruct H as [(x & HX & _)|[[_ E]|(e & _ & E)]]; try discriminate.
    assert (FT : snd x p = true).
    { destruct ls as [|l ls]; [congruence|]. cbn [pmgc] in HX. destruct rest as [|s1 rest]; try discriminate. destruct HX as [(s2 & _ & H)|[[_ E]|(e & _ & E)]]; try discriminate. destruct H as [(rhs1 & _ & H)|[[_ E]|(e & _ & E)]]; try discriminate. destruct H as [(y & HY & H)|[[_ E]|(e & _ & E)]]; try discriminate.
      destruct (fst y) as [|s1' rest']; [discriminate|]. destruct H as [(cf & _ & H)|[[_ E]|(e & _ & E)]]; try discriminate. cbn zeta in H. destruct (true && negb (forallb (snd y) (seq 0 P))) eqn:EF; [discriminate|]. destruct H as [(s3 & _ & H)|[[_ E]|(e & _ & E)]]; try discriminate. injection H as ->. cbn [snd]. apply negb_false_iff in EF. exact EF. }
    destruct (pmgc_flags cf0 HZ _ _ _ _ _ HX p Hp FT) as [X1 X2]. destruct HB as [HB|[HB1 HB2]]; [congruence|]. rewrite X2 in HB2; [discriminate|]. destruct ls; [congruence|]. cbn [visited]. apply negb_true_iff. apply Nat.eqb_neq. auto.
  Qed.
End Cycle.

(** ** BlockPreconditioner and ParSSOR as smoothers *)
Section Block.
  Context {R : ring}.
  Local Open Scope ring_scope_istl.
  Variables (P G : nat) (sz : nat -> nat) (ix : nat -> pis).
  Hypothesis HW : dist_wf P sz ix.
  Hypothesis HU : unique_owner P ix.
  Hypothesis HO : forall q g l a, q < P -> holds ix q g l a -> g < G /\ exists p l', p < P /\ holds ix p g l' Owner.
  Hypothesis HF : forall p l, p < P -> l < sz p -> exists g a, holds ix p g l a.
  (** BlockPreconditioner::apply, schwarz.hh:337-348, and ParSSOR::apply, :216-223: M p v d is the sequential preconditioner of process p (ParSSOR: n sweeps bsorf and bsorb) *)
  Definition block (M : nat -> vec R -> vec R -> outcome (vec R)) (v d : fam (R := R)) : prog fam := pbind (each P [] (fun p => M p (v p) (d p))) (comm P ix).
  (** The correction of the block preconditioner for a global defect: at every index what the owner computes from its part of a vector that represents the defect, starting with zero *)
  Definition block_correction (M : nat -> vec R -> vec R -> outcome (vec R)) (gd w : nat -> R) : Prop :=
    exists d : fam, isdefect P sz ix gd d /\ forall p g l, p < P -> holds ix p g l Owner -> exists y, M p (repeat r0 (sz p)) (d p) = Ok y /\ vget y l = w g.
  Lemma owner_values (y : fam (R := R)) : exists gx, forall p g l, p < P -> holds ix p g l Owner -> vget (y p) l = gx g.
  Proof.
    exists (fun g => match find (fun p => existsb (fun e => (e_g e =? g) && attr_eqb (e_a e) Owner) (ix p)) (seq 0 P) with Some p => match lookup (ix p) g with Some e => vget (y p) (e_l e) | None => r0 end | None => r0 end).
    intros p g l Hp H. destruct (find _ (seq 0 P)) as [q|] eqn:E.
    - apply find_some in E. destruct E as [E1 E2]. apply in_seq in E1. apply existsb_exists in E2. destruct E2 as ([g' l' a'] & X1 & X2). cbn [e_g e_a] in X2. apply andb_true_iff in X2. destruct X2 as [X2 X3]. apply Nat.eqb_eq in X2. subst g'. destruct a'; try discriminate.
      assert (q = p) by (apply (HU g q p l' l); auto; lia). subst q. destruct (HW p Hp) as (HS & _). rewrite (proj2 (lookup_spec (ix p) g (mke g l Owner) HS) (conj H eq_refl)). reflexivity.
    - pose proof (find_none _ _ E p) as E'. exfalso. cbn beta in E'. assert (T : existsb (fun e => (e_g e =? g) && attr_eqb (e_a e) Owner) (ix p) = true); [|rewrite E' in T; [discriminate|apply in_seq; lia]]. apply existsb_exists. exists (mke g l Owner). split; auto. cbn. rewrite Nat.eqb_refl. reflexivity.
  Qed.
  Lemma zero_local gx (v : fam (R := R)) p : (forall g, gx g = r0) -> consist P sz ix gx v -> p < P -> v p = repeat r0 (sz p).
  Proof.
    intros Z H Hp. destruct (H p Hp) as [L A]. apply (nth_ext _ _ r0 r0); [rewrite repeat_length; auto|]. intros l Hl. rewrite nth_repeat. destruct (HF p l Hp ltac:(lia)) as (g & a & Hh). unfold agrees, vget in A. rewrite (A g l a Hh). apply Z.
  Qed.
  (** C75 (smoothers): any sequential preconditioner that accepts its vectors gives a block preconditioner that is a smoother for the cycle of C75_apply *)
  Theorem C75_block (M : nat -> vec R -> vec R -> outcome (vec R)) : (forall p v d, p < P -> length v = sz p -> length d = sz p -> exists w, M p v d = Ok w /\ length w = sz p) ->
    smoother_ok P sz ix (block M) (block_correction M).
  Proof.
    intros HM gd v d HV HD. unfold block.
    eapply (pok_bind _ _ (fun y => forall p, p < P -> M p (repeat r0 (sz p)) (d p) = Ok (y p) /\ length (y p) = sz p)).
    - apply (pok_each P [] _ (fun p y => M p (repeat r0 (sz p)) (d p) = Ok y /\ length y = sz p)). intros p Hp. destruct (HV p Hp) as [LV _], (HD p Hp) as [LD _]. destruct (HM p (v p) (d p) Hp LV LD) as (w & E & L). exists w. split; auto. split; auto.
      rewrite <- (zero_local (fun _ => r0) v p) by auto. exact E.
    - intros y Hy. destruct (owner_values y) as [gx HX]. eapply pok_weaken; [apply (comm_spec P G sz ix gx y HW HU HO)|].
      + intros p Hp. apply Hy; auto.
      + exact HX.
      + intros w Hw. exists gx. split; auto. exists d. split; auto. intros p g l Hp Hh. exists (y p). split; [apply Hy; auto|]. apply HX; auto.
  Qed.
  (** Without overlap indices the correction at the indices is a function of the global defect *)
  Theorem C75_block_deterministic (M : nat -> vec R -> vec R -> outcome (vec R)) gd w w' : (forall p g l, p < P -> ~ holds ix p g l Overlap) -> block_correction M gd w -> block_correction M gd w' ->
    forall p g l a, p < P -> holds ix p g l a -> w g = w' g.
  Proof.
    intros NO (d & D & W) (d' & D' & W') p g l a Hp H. destruct (HO p g l a Hp H) as (_ & q & l' & Hq & Hh). destruct (W q g l' Hq Hh) as (y & E & <-), (W' q g l' Hq Hh) as (y' & E' & <-).
    assert (ED : d q = d' q). { destruct (D q Hq) as (L & D1 & D2), (D' q Hq) as (L' & D1' & D2'). apply (nth_ext _ _ r0 r0); [congruence|]. intros k Hk. destruct (HF q k Hq ltac:(lia)) as (h & b & Hb).
      destruct b; [|exfalso; apply (NO q h k Hq Hb)|]; [unfold vget in *; rewrite (D1 h k Hb), (D1' h k Hb); auto|unfold vget in *; rewrite (D2 h k Hb), (D2' h k Hb); auto]. }
    rewrite ED in E. congruence.
  Qed.
End Block.

(** Deviation: with overlap indices the right hand side of a coarse level is not that of the global cycle at the overlap indices, even if the fine defect is right everywhere: the local sum misses the vertices that
    the process does not hold.  So with overlap the sequential preconditioner of a coarse level works with a defect that is not the restriction of the global one. *)
Definition ovix (p : nat) : pis := match p with 0 => [mke 0 0 Owner; mke 1 1 Overlap] | 1 => [mke 0 2 Copy; mke 1 0 Owner; mke 2 1 Owner] | _ => [] end.
Definition ovcx (p : nat) : pis := match p with 0 => [mke 0 0 Owner; mke 1 1 Overlap] | 1 => [mke 0 1 Copy; mke 1 0 Owner] | _ => [] end.
Definition ovagg (p l : nat) : aggd := match p, l with 0, 0 => Agg 0 | 0, _ => Agg 1 | _, 2 => Agg 1 | _, _ => Agg 0 end.
Definition ovga (g : nat) : option nat := match g with 0 => Some 0 | 1 | 2 => Some 1 | _ => None end.
Ltac cases := repeat match goal with H : holds _ _ _ _ _ |- _ => unfold holds in H | H : In _ _ |- _ => cbn [ovix ovcx pix In] in H | H : _ \/ _ |- _ => destruct H | H : False |- _ => destruct H | H : mke _ _ _ = mke _ _ _ |- _ => injection H; clear H; intros; subst end.
Theorem C75_overlap_defect_refuted : published 2 ovix ovcx ovagg /\ global_aggregates 2 ovix ovcx ovagg ovga /\
  exists (r : nat -> vec Zring) (c : vec Zring), (forall p, p < 2 -> agrees (R := Zring) (ovix p) (fun _ => 1%Z) (r p)) /\ restrict_parallel (R := Zring) ovcx ovagg 0 [0%Z; 0%Z] (r 0) = Ok c /\
    holds ovcx 0 1 1 Overlap /\ vget (R := Zring) c 1 = 1%Z /\ grestrict (R := Zring) 3 ovga (fun _ => 1%Z) 1 = 2%Z.
Proof.
  split; [|split].
  - intros p q g l l' a Hp Hq H1 H2. right. destruct p as [|[|p]]; [| |lia]; (destruct q as [|[|q]]; [| |lia]); cases; try discriminate; unfold holds; cbn [ovcx ovagg In]; eauto 20.
  - intros g I. split.
    + intros E. destruct g as [|[|[|g]]]; cbn in E; try discriminate; injection E as <-; [exists 0, 0, 0|exists 1, 0, 0|exists 1, 1, 0]; unfold holds; cbn; repeat split; auto; lia.
    + intros (p & l & k & Hp & H1 & H2 & H3). destruct p as [|[|p]]; [| |lia]; cases; try discriminate; reflexivity.
  - exists (fun p => match p with 0 => [1; 1]%Z | _ => [1; 1; 1]%Z end), [1; 1]%Z. split; [|repeat split; try reflexivity; cbn; auto].
    intros p Hp g l a H. destruct p as [|[|p]]; [| |lia]; cases; reflexivity.
Qed.

(** ** Example: the two processes of C74 with one coarser level, Richardson's method in the blocks, and a coarse solver that returns its right hand side *)
Definition xcx (p : nat) : pis := match p with 0 => [mke 1 0 Owner; mke 2 1 Overlap] | 1 => [mke 1 1 Copy; mke 2 0 Owner] | _ => [] end.
Definition xagg (p l : nat) : aggd := match p, l with 0, 2 => Agg 1 | 0, _ => Agg 0 | _, 0 => Agg 0 | _, 1 => Iso | _, _ => Agg 1 end.
Definition xga (g : nat) : option nat := match g with 0 | 1 => Some 1 | 2 => Some 2 | _ => None end.
Definition xM (p : nat) (v d : vec Zring) : outcome (vec Zring) := Ok (Amg.pluseq v d).
Definition xlevel : plevel (R := Zring) := mkpl psz pix gloc xagg (block 2 pix xM) (block 2 pix xM).
Definition xcoarse : pcoarse (R := Zring) := mkpc (fun _ => 2) xcx (fun v d => pret (d, d, fun _ => true)).
Definition xglevel : glevel (R := Zring) := mkgl gA xga (block_correction 2 psz pix xM) (block_correction 2 psz pix xM).
Definition xsolve (d w : nat -> Zring) : Prop := forall g, w g = d g.
Ltac xcases := repeat match goal with H : holds _ _ _ _ _ |- _ => unfold holds in H | H : In _ _ |- _ => cbn [xcx pix In xcoarse z_ix xlevel v_ix] in H | H : _ \/ _ |- _ => destruct H | H : False |- _ => destruct H | H : mke _ _ _ = mke _ _ _ |- _ => injection H; clear H; intros; subst end.
Lemma x_hier : hier_ok (R := Zring) 2 4 xcoarse xsolve (fun _ => true) [xlevel] [xglevel].
Proof.
  assert (SM : smoother_ok (R := Zring) 2 psz pix (block 2 pix xM) (block_correction 2 psz pix xM)).
  { destruct g_level as (HW & HU & HO & HF & _). apply (C75_block 2 4 psz pix HW HU HO HF). intros p v d Hp Lv Ld. exists (Amg.pluseq v d). split; [reflexivity|]. rewrite (Amg.pluseq_eq (R := Zring) (psz p)) by auto. unfold Amg.vadd. apply Amg.vecf_length. }
  cbn [hier_ok xlevel xglevel v_sz v_ix v_A v_agg v_pre v_post g_A g_ga g_pre g_post next_ix xcoarse z_ix]. split; [exact g_level|]. split; [|split; [|split; [exact SM|split; [exact SM|]]]].
  - intros p q g l l' a Hp Hq H1 H2. destruct p as [|[|p]]; [| |lia]; (destruct q as [|[|q]]; [| |lia]); xcases; try discriminate; unfold holds; cbn [xcx xagg In]; first [left; split; reflexivity|right; eauto 20].
  - intros g I. split.
    + intros E. destruct g as [|[|[|g]]]; cbn in E; try discriminate; injection E as <-; [exists 0, 0, 0|exists 0, 1, 0|exists 1, 0, 0]; unfold holds; cbn; repeat split; auto; lia.
    + intros (p & l & k & Hp & H1 & H2 & H3). destruct p as [|[|p]]; [| |lia]; xcases; try discriminate; reflexivity.
  - split; [|split; [|split; [|split]]].
    + intros p Hp. destruct p as [|[|p]]; [| |lia]; (split; [|split]); cbn; repeat constructor; cbn; try lia; intros HH; repeat (destruct HH as [HH|HH]; try lia; try discriminate); try contradiction.
    + intros g p q l l' Hp Hq H1 H2. destruct p as [|[|p]]; [| |lia]; (destruct q as [|[|q]]; [| |lia]); xcases; try discriminate; reflexivity.
    + intros q g l a Hq H. destruct q as [|[|q]]; [| |lia]; xcases; (split; [lia|]); first [exists 0, 0; split; [lia|left; reflexivity]|exists 1, 0; split; [lia|right; left; reflexivity]].
    + intros p l Hp Hl. cbn [xcoarse z_sz] in Hl. destruct p as [|[|p]]; [| |lia]; (destruct l as [|[|l]]; [| |lia]); unfold holds; cbn; eauto 10.
    + intros gd v d HV HD. apply pok_ret. cbn [fst snd]. exists gd. split; [intros g; reflexivity|]. split; auto. split; auto. intros p Hp. apply (HD p Hp).
Qed.
Lemma x_correction gd w : block_correction (R := Zring) 2 psz pix xM gd w -> forall g, g < 4 -> w g = gd g.
Proof.
  intros (d & D & W) g Hg. assert (X : exists p l, p < 2 /\ l < 3 /\ holds pix p g l Owner) by (destruct g as [|[|[|[|g]]]]; [exists 0, 0|exists 0, 1|exists 1, 0|exists 1, 1|lia]; repeat split; try lia; cbn; auto).
  destruct X as (p & l & Hp & Hl & Hh). destruct (W p g l Hp Hh) as (y & E & <-). unfold xM in E. injection E as <-. destruct (D p Hp) as (L & D1 & _). assert (T : psz p = 3) by (destruct p as [|[|p]]; auto; lia).
  rewrite (Amg.pluseq_eq (R := Zring) 3) by (rewrite ?repeat_length; congruence). unfold Amg.vadd. rewrite (Amg.vecf_get (R := Zring)) by auto. rewrite (D1 g l Hh). unfold vget. rewrite nth_repeat. reflexivity.
Qed.
(** a run with a V-cycle, one step before and after: the hypotheses of C75_apply hold, and the textbook cycle gives these values *)
Example C75_nonvacuous : exists (st : list pst) (d : nat -> vec Zring) (gd : nat -> Zring), isdefect (R := Zring) 2 psz pix gd d /\ gd 0 = 1%Z /\
  pok (pamg_apply (R := Zring) 2 xcoarse 1%Z 1 1 1 [xlevel] st (fun _ => true) (fun p => repeat 0%Z 3) d)
    (fun o => (exists gu, gcycle (R := Zring) 4 1%Z 1 1 1 xsolve [xglevel] gd gu /\ consist (R := Zring) 2 psz pix gu (fst (fst o))) /\ pshape (R := Zring) 2 xcoarse [xlevel] (snd (fst o)) /\ forall p, p < 2 -> snd o p = true) /\
  forall gu, gcycle (R := Zring) 4 1%Z 1 1 1 xsolve [xglevel] gd gu -> gu 0 = 2%Z /\ gu 1 = 7%Z /\ gu 2 = 6%Z /\ gu 3 = 6%Z.
Proof.
  set (d := fun p : nat => match p with 0 => [1; 2; 3]%Z | _ => [3; 4; 0]%Z end). set (gd := fun g : nat => (Z.of_nat g + 1)%Z).
  exists [mkpst (R := Zring) (fun _ => repeat 0%Z 3) (fun _ => repeat 0%Z 3) (fun _ => repeat 0%Z 3); mkpst (R := Zring) (fun _ => repeat 0%Z 2) (fun _ => repeat 0%Z 2) (fun _ => repeat 0%Z 2)], d, gd.
  assert (HD : isdefect (R := Zring) 2 psz pix gd d). { intros p Hp. destruct p as [|[|p]]; [| |lia]; (split; [reflexivity|split; intros g l H; xcases; try discriminate; reflexivity]). }
  split; auto. split; [reflexivity|]. split.
  - apply (C75_apply (R := Zring) 2 4 xcoarse 1%Z 1 1 1 xsolve (fun _ => true) [xlevel] [xglevel]); [exact x_hier| | | | |exact HD].
    + assert (T : forall p, p < 2 -> psz p = 3) by (intros [|[|p]] Hp; auto; lia). cbn [pshape xlevel v_sz]. split; [|cbn; auto]; repeat split; intros p Hp; cbn [s_lhs s_rhs s_upd xcoarse z_sz]; rewrite repeat_length; auto. rewrite T; auto. rewrite T; auto. rewrite T; auto.
    + auto.
    + auto.
    + intros [|[|p]] Hp; [| |lia]; reflexivity.
  - intros gu (u1 & x & (w1 & W1 & U1) & X & (w2 & W2 & U2)). cbn [gcycle] in X. unfold xsolve in X. cbn [grelax] in U1, U2. cbn [xglevel g_A g_ga g_pre g_post] in *.
    pose proof (x_correction _ _ W1) as V1. pose proof (x_correction _ _ W2) as V2. clear W1 W2.
    assert (A0 : u1 0 = 1%Z) by (rewrite U1, V1 by lia; reflexivity). assert (A1 : u1 1 = 2%Z) by (rewrite U1, V1 by lia; reflexivity). assert (A2 : u1 2 = 3%Z) by (rewrite U1, V1 by lia; reflexivity). assert (A3 : u1 3 = 4%Z) by (rewrite U1, V1 by lia; reflexivity).
    assert (X1 : x 1 = 3%Z) by (rewrite X; unfold grestrict, gres; cbn; rewrite ?A0, ?A1, ?A2, ?A3; reflexivity). assert (X2 : x 2 = 3%Z) by (rewrite X; unfold grestrict, gres; cbn; rewrite ?A0, ?A1, ?A2, ?A3; reflexivity).
    rewrite !U2, !V2 by lia. unfold gres, gprolong. cbn [sum xga]. rewrite ?A0, ?A1, ?A2, ?A3, X1, X2. repeat split; reflexivity.
Qed.
Print Assumptions C75_apply.
Print Assumptions C75_throws.
Print Assumptions C75_single_level_refuted.
Print Assumptions C75_consensus.
Print Assumptions C75_block.
Print Assumptions C75_block_deterministic.
Print Assumptions C75_overlap_defect_refuted.
Print Assumptions C75_nonvacuous.
