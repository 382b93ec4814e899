(** * The life of sequential AMG preconditioner objects (C80): construction, copies, assignments, changes of the matrix, recalculateHierarchy,
    pre, apply, post and destruction in any order (dune/istl/paamg/amg.hh), and what AMG::apply does when the coarse solver fails *)
From Coq Require Import Arith List Lia Bool ZArith QArith.
From Verif Require Import Ring Sums RingInst Outcome Sparse MatVec Solvers AmgTransfer Aggregation Amg AmgSetup SpdSolve.
Import ListNotations.
Open Scope nat_scope.
Open Scope list_scope.

(** ** AMG::apply with a coarse solver that may fail *)
Section Fail.
  Context {R : ring}.
  Local Open Scope ring_scope_istl.
  Variable solve : vec R -> vec R -> vec R * vec R * bool.
  Variable damp : R.
  Variables (preSteps postSteps gamma : nat).
  Notation mgc := (mgc solve damp preSteps postSteps gamma).
  Notation cycle := (cycle solve damp preSteps postSteps gamma).
  Notation zerov := (zerov (R := R)).

  (** Specification: the right-hand sides of the coarsest level that the textbook cycle solves for, in order *)
  Fixpoint correct_rhs (n : nat) (A : smat R) (B : vec R -> vec R) (F : vec R -> list (vec R)) (k : nat) (r c : vec R) : list (vec R) :=
    match k with 0 => nil | S k' => F (residual n A r c) ++ correct_rhs n A B F k' r (vadd n c (B (residual n A r c))) end.
  Fixpoint coarse_rhs (nc : nat) (ls : list (@level R)) (d : vec R) : list (vec R) :=
    match ls with
    | nil => [d]
    | l :: ls' =>
      let n := length (l_A l) in let K := dim nc ls' in
      let u := relax n (l_A l) (l_pre l) preSteps d (zerov n) in
      let r := Rst (l_agg l) n K (residual n (l_A l) d u) in
      match ls' with
      | nil => match gamma with 0 => nil | _ => coarse_rhs nc ls' r end
      | l' :: _ => correct_rhs K (l_A l') (cycle nc ls') (coarse_rhs nc ls') gamma r (zerov K)
      end
    end.
  (** all of these solves, started from zero, report convergence *)
  Definition solves (nc : nat) (rs : list (vec R)) : bool := forallb (fun r => snd (solve (zerov nc) r)) rs.

  Variable nc : nat.
  Hypothesis solve_sizes : forall u b, length u = nc -> length b = nc -> length (fst (fst (solve u b))) = nc /\ length (snd (fst (solve u b))) = nc.
  Notation mgc_post := (mgc_post solve damp preSteps postSteps gamma nc).
  Notation mgc_pre := (mgc_pre nc).

  Lemma gloop_flag F ls l1 f : ls = l1 :: tl ls -> level_ok (dim nc (tl ls)) l1 ->
    (forall s rest cv, shape nc ls (s :: rest) -> exists s' rest', f (s :: rest) cv = Ok (s' :: rest', cv && solves nc (F (t_rhs s))) /\ shape nc ls (s' :: rest') /\ mgc_post ls s s') ->
    forall g s rest cv r c, shape nc ls (s :: rest) -> length r = dim nc ls -> t_rhs s = residual (dim nc ls) (l_A l1) r c -> t_upd s = c ->
    exists s' rest', gloop f (Some (l_A l1)) g (s :: rest) cv = Ok (s' :: rest', cv && solves nc (correct_rhs (dim nc ls) (l_A l1) (cycle nc ls) F g r c)) /\ shape nc ls (s' :: rest') /\
      t_upd s' = correct (dim nc ls) (l_A l1) (cycle nc ls) g r c.
  Proof.
    intros EL (HA & _) HF. induction g as [|g IH]; intros s rest cv r c SH Hr HR HC; cbn [gloop correct correct_rhs].
    - exists s, rest. cbn [solves forallb]. rewrite andb_true_r. auto.
    - destruct (HF s rest cv SH) as (s' & rest' & E & SH' & P1 & P2). rewrite E. cbn [obind fst snd].
      assert (N : dim nc ls = length (l_A l1)) by (rewrite EL; reflexivity).
      rewrite EL in P2. cbv iota in P2. rewrite <- EL in P2. rewrite HR in P1, P2. rewrite HC in P1.
      assert (SPL : forall q, solves nc (F (residual (dim nc ls) (l_A l1) r c) ++ q) = solves nc (F (residual (dim nc ls) (l_A l1) r c)) && solves nc q)
        by (intros q; unfold solves; apply forallb_app).
      rewrite SPL. rewrite HR. destruct g as [|g].
      + exists s', rest'. cbn [correct_rhs solves forallb]. rewrite andb_true_r. auto.
      + assert (SZ : sized (dim nc ls) s') by (rewrite EL in SH'; cbn [shape] in SH'; rewrite N; apply SH').
        destruct SZ as (Z1 & Z2 & Z3). rewrite andb_assoc. apply IH; auto.
        * rewrite EL in SH' |- *. cbn [shape] in *. destruct SH' as [_ SH']. split; auto. rewrite <- N. repeat split; cbn; auto. rewrite (usmv_eq (dim nc ls)) by (auto; rewrite N; auto). apply residual_length.
        * cbn [t_rhs]. rewrite (usmv_eq (dim nc ls)) by (auto; rewrite N; auto). rewrite P2. symmetry. apply residual_add.
  Qed.

  Lemma mgc_flag ls : hier_ok nc ls -> forall fin s rest cv, shape nc ls (s :: rest) -> mgc_pre ls s ->
    let cv' := cv && solves nc (coarse_rhs nc ls (t_rhs s)) in
    if fin && negb cv' && negb (length ls =? 0) then mgc ls fin (s :: rest) cv = Throw EMath else
    exists s' rest', mgc ls fin (s :: rest) cv = Ok (s' :: rest', cv') /\ shape nc ls (s' :: rest') /\ mgc_post ls s s'.
  Proof.
    induction ls as [|l ls IH]; intros HH fin s rest cv SH HP cv'.
    - cbn [shape] in SH. destruct rest; [|contradiction]. destruct SH as (Z1 & Z2 & Z3). cbn [Amg.mgc_pre] in HP. cbn [Amg.mgc]. subst cv'. cbn [coarse_rhs solves forallb]. rewrite HP in *.
      destruct (solve (zerov nc) (t_rhs s)) as [[u b] ok] eqn:E. destruct (solve_sizes (zerov nc) (t_rhs s) Z3 Z2) as [L1 L2]. rewrite E in L1, L2. cbn in L1, L2.
      cbn [length Nat.eqb negb snd]. rewrite !andb_false_r, !andb_true_r. eexists _, nil. split; [reflexivity|]. split; [cbn; repeat split; auto|].
      split; [|exact Logic.I]. cbn [t_upd dim Amg.cycle]. rewrite HP, E. cbn [fst]. rewrite vadd_0_l by auto. auto.
    - cbn [hier_ok] in HH. destruct HH as [HL HH]. pose proof HL as (HA & HG & HS1 & HS2). set (n := length (l_A l)) in *. set (K := dim nc ls) in *.
      cbn [shape] in SH. destruct SH as [SZ SH]. fold n in SZ. destruct rest as [|s1 rest]; [destruct ls; contradiction|]. cbn [Amg.mgc].
      assert (SZ1 : sized K s1). { unfold K. destruct ls as [|l1 ls1]; cbn [shape] in SH; [destruct rest; [|contradiction]|destruct SH as [SH _]]; exact SH. }
      destruct SZ1 as (Y1 & Y2 & Y3). set (d := t_rhs s) in *. assert (Hd : length d = n) by apply SZ.
      destruct (presmooth_ok l n preSteps eq_refl HA HS1 s d (zerov n) SZ Hd (zerov_length n) ltac:(unfold d; rewrite residual_0; auto)) as (SP & RP & x & X1 & X2 & X3).
      set (sp := presmooth l preSteps s) in *. set (u := relax n (l_A l) (l_pre l) preSteps d (zerov n)) in *.
      rewrite vadd_0_l in X2 by auto. subst x. assert (Hu : length u = n) by auto.
      rewrite (restrict_eq (l_agg l) n K) by (auto; apply SP). cbn [obind]. rewrite RP. set (r := Rst (l_agg l) n K (residual n (l_A l) d u)).
      assert (Hr : length r = K) by apply vecf_length.
      rewrite (setzero_eq K) by auto. set (s1a := mklst (t_lhs s1) r (zerov K)).
      assert (SHa : shape nc ls (s1a :: rest)).
      { destruct ls as [|l1 ls1]; cbn [shape] in *; [destruct rest; [|contradiction]; unfold K in *; repeat split; cbn; auto; apply zerov_length|].
        destruct SH as [_ SH]. split; auto. unfold K in *; repeat split; cbn; auto. apply zerov_length. }
      assert (GL : exists s' rest', gloop (mgc ls false) (option_map l_A (hd_error ls)) gamma (s1a :: rest) cv = Ok (s' :: rest', cv') /\ shape nc ls (s' :: rest') /\
                t_upd s' = match ls with nil => match gamma with 0 => zerov K | _ => cycle nc ls r end | l' :: _ => correct K (l_A l') (cycle nc ls) gamma r (zerov K) end).
      { subst cv'. cbn [coarse_rhs]. cbv zeta. fold n d u K r. destruct ls as [|l1 ls1].
        - destruct gamma as [|g] eqn:EG; cbn [gloop hd_error option_map].
          + exists s1a, rest. cbn [solves forallb]. rewrite andb_true_r. auto.
          + destruct (IH HH false s1a rest cv SHa eq_refl) as (s' & rest' & E & S1 & P1 & _). rewrite E. cbn [obind]. exists s', rest'.
            split; [cbn [s1a t_rhs]; reflexivity|]. split; auto. rewrite P1. cbn [s1a t_upd t_rhs]. apply vadd_0_l. apply (cycle_length solve damp preSteps postSteps _ nc solve_sizes nil). auto.
        - refine (gloop_flag (coarse_rhs nc (l1 :: ls1)) (l1 :: ls1) l1 (mgc (l1 :: ls1) false) eq_refl (proj1 HH) _ gamma s1a rest cv r (zerov K) SHa Hr _ eq_refl);
            [intros s2 rest2 cv2 S2; exact (IH HH false s2 rest2 cv2 S2 Logic.I)|]. cbn [s1a t_rhs]. symmetry. apply residual_0. auto. }
      destruct GL as (s1' & rest' & E & SH' & U1). rewrite E. cbn [obind fst snd].
      match type of U1 with _ = ?cc => set (c := cc) in * end.
      assert (SZ1' : sized K s1'). { unfold K. destruct ls as [|l1 ls1]; cbn [shape] in SH'; [destruct rest'; [|contradiction]|destruct SH' as [SH' _]]; exact SH'. }
      destruct SZ1' as (W1 & W2 & W3). destruct SP as (P1 & P2 & P3). rewrite (setzero_eq n) by auto.
      destruct (prolong_eq damp (l_agg l) n K (t_upd s1') W3 HG) as (c' & C1 & C2). rewrite C2. cbn [obind fst snd length Nat.eqb negb]. rewrite andb_true_r.
      destruct (fin && negb cv') eqn:EFIN; [reflexivity|]. rewrite U1. set (pc := Pro damp (l_agg l) n K c).
      assert (Hpc : length pc = n) by apply vecf_length. rewrite (pluseq_eq n) by auto. set (s2 := mklst pc (residual n (l_A l) d u) (vadd n (t_upd sp) pc)).
      try rewrite RP; fold s2.
      destruct (postsmooth_ok l n postSteps eq_refl HA HS2 s2 d (vadd n u pc)) as (Q1 & Q2 & y & Q3 & Q4 & Q5); auto.
      { repeat split; cbn; auto; [apply residual_length|apply vadd_length]. }
      { apply vadd_length. }
      { cbn. symmetry. apply residual_add. }
      eexists _, _. split; [reflexivity|]. split; [|split].
      + cbn [shape]. split; [exact Q1|]. destruct ls as [|l1 ls1]; cbn [shape] in *; [destruct rest'; [|contradiction]; unfold K in *; repeat split; cbn; auto|]. destruct SH' as [_ SH']. split; auto. unfold K in *; repeat split; cbn; auto.
      + rewrite Q5. cbn [s2 t_upd]. rewrite X3. cbn [dim Amg.cycle]. cbv zeta. fold n K d u r c pc. rewrite Q4. rewrite !vadd_assoc. reflexivity.
      + cbn [dim]. fold n. exact Q2.
  Qed.
  (** C80.  AMG::apply with a coarse solver that may fail: whatever the vectors are and v is, the call throws MathError iff the hierarchy has more than one level and one
      of the coarse solves of this cycle, or an earlier one of the same object (conv = false), did not converge; otherwise it returns the cycle of d. *)
  Theorem C80_apply ls st conv v d : hier_ok nc ls -> shape nc ls st -> length v = dim nc ls -> length d = dim nc ls ->
    let conv' := conv && solves nc (coarse_rhs nc ls d) in
    (ls <> nil -> conv' = false -> amg_apply solve damp preSteps postSteps gamma ls st conv v d = Throw EMath) /\
    (ls = nil \/ conv' = true -> exists st', amg_apply solve damp preSteps postSteps gamma ls st conv v d = Ok (cycle nc ls d, st', conv') /\ shape nc ls st').
  Proof.
    intros HH SH Hv Hd conv'. unfold amg_apply. destruct st as [|s rest]; [destruct ls; contradiction|].
    assert (SZ : sized (dim nc ls) s) by (destruct ls; cbn [shape dim] in *; [destruct rest; [|contradiction]|destruct SH as [SH _]]; exact SH).
    destruct SZ as (Z1 & Z2 & Z3). rewrite (setzero_eq (dim nc ls)) by auto.
    pose proof (mgc_flag ls HH true (mklst v d (zerov (dim nc ls))) rest conv) as M. cbv zeta in M. cbn [t_rhs] in M. fold conv' in M. cbn [andb] in M.
    assert (SH2 : shape nc ls (mklst v d (zerov (dim nc ls)) :: rest)).
    { destruct ls; cbn [shape dim] in *; [destruct rest; [|contradiction]|destruct SH as [_ SH]; split; auto]; repeat split; cbn; auto; apply zerov_length. }
    assert (PP : mgc_pre ls (mklst v d (zerov (dim nc ls)))) by (destruct ls; cbn; auto). specialize (M SH2 PP). split.
    - intros HN HC. rewrite HC in M. destruct ls as [|l ls]; [congruence|]. cbn [negb length Nat.eqb andb] in M. rewrite M. reflexivity.
    - intros HC. assert (G : negb conv' && negb (length ls =? 0) = false) by (destruct HC as [-> | ->]; [apply andb_false_r|reflexivity]). rewrite G in M.
      destruct M as (s' & rest' & E & SH' & P & _). rewrite E. cbn [obind fst snd]. exists (s' :: rest'). split; auto. rewrite P. cbn [t_upd t_rhs].
      rewrite vadd_0_l; auto. apply cycle_length; auto.
  Qed.
End Fail.

(** ** The objects *)
Section Life.
  Context {R : ring}.
  Local Open Scope ring_scope_istl.
  Variable inv : R -> option R.     (* inverse of a diagonal block *)
  Variable eq0 : R -> bool.
  Variable damp : R.
  Variables (preSteps postSteps gamma : nat).
  (** The smoothers and the coarse solver: what they compute may depend on the matrix at the time they were constructed (first argument; a copy, a factorisation) and on the
      matrix when they are used (second argument; they hold a reference to it).  SOR, SSOR, Jacobi and the iterative coarse solver use only the second one, ILU and the direct
      coarse solvers only the first one. *)
  Variables spre spost : smat R -> smat R -> vec R -> vec R -> vec R.
  Variable csolve : smat R -> smat R -> vec R -> vec R -> vec R * vec R * bool.
  Variables fill1 fill2 fill3 : nat -> vec R.
  (** MatrixHierarchy::build, with the parameters of the object *)
  Variable bld : smat R -> outcome (option (list (@mlevel R) * smat R)).

  Definition mhier : Type := (list (@mlevel R) * smat R)%type.
  (** the hierarchy with [A] as finest matrix *)
  Definition with_finest (A : smat R) (h : mhier) : mhier := match fst h with nil => (nil, A) | (_, agg) :: ls => ((A, agg) :: ls, snd h) end.
  (** matrices_, smoothers_ and solver_, amg.hh:340-351: what the copies of an object share.  The finest matrix is the one of the user (stackobject_to_shared_ptr, amg.hh:467;
      [h_user], its number), the finest entry of [h_now] is never used; [h_built]: all matrices when the smoothers and the coarse solver were constructed. *)
  Record shared : Type := mkshared { h_user : nat; h_now : mhier; h_built : mhier }.
  (** the other members, amg.hh:352-383; rhs_, lhs_ and update_ are pointers that are set and reset together *)
  Record obj : Type := mkobj { o_shared : nat; o_vec : option nat; o_conv : bool }.
  Record world : Type := mkworld { w_mats : list (smat R); w_shared : list (option shared); w_vecs : list (list (@lst R)); w_objs : list (option obj) }.

  Inductive op : Type :=
  | Change (m : nat) (A : smat R)         (* the user assigns new values to his matrix m *)
  | Construct (m : nat)                   (* AMG(m, criterion, smootherArgs) *)
  | Copy (g : nat)                        (* AMG(g) *)
  | Assign (g h : nat)                    (* g = h *)
  | Recalculate (g : nat)                 (* g.recalculateHierarchy() *)
  | Pre (g : nat) (x b : vec R)
  | Apply (g : nat) (v d : vec R)
  | Post (g : nat)
  | Destroy (g : nat).
  Inductive out : Type := Done | Vec (v : vec R) | Pair (x b : vec R) | Raised (e : exn).

  Definition get {T} (l : list (option T)) (i : nat) : option T := match nth_error l i with Some (Some x) => Some x | _ => None end.
  (** the levels of a cycle: coarsenSmoother, matrixhierarchy.hh:866-894 *)
  Fixpoint levels_of (b n : list (@mlevel R)) : list (@level R) :=
    match b, n with
    | (B, _) :: b', (A, agg) :: n' => mklevel A (spre B A) (spost B A) agg :: levels_of b' n'
    | _, _ => nil
    end.
  (** shared_ptr: what no object refers to is destroyed *)
  Definition used (objs : list (option obj)) (i : nat) : bool := existsb (fun o => match o with Some o => o_shared o =? i | None => false end) objs.
  Definition collect (w : world) : world :=
    mkworld (w_mats w) (map (fun p => if used (w_objs w) (fst p) then snd p else None) (combine (seq 0 (length (w_shared w))) (w_shared w))) (w_vecs w) (w_objs w).
  Definition set_obj (w : world) (g : nat) (o : option obj) : world := mkworld (w_mats w) (w_shared w) (w_vecs w) (upd (w_objs w) g o).
  Definition push_obj (w : world) (o : obj) : world := mkworld (w_mats w) (w_shared w) (w_vecs w) (w_objs w ++ [Some o]).
  (** an object and what it shares with others *)
  Definition deref (w : world) (g : nat) : outcome (obj * shared * smat R) :=
    match get (w_objs w) g with
    | Some o => match get (w_shared w) (o_shared o) with
                | Some s => match nth_error (w_mats w) (h_user s) with Some A => Ok (o, s, A) | None => UB end
                | None => UB end
    | None => UB
    end.

  (** One call.  A call that throws leaves a result [Raised]; what AMG::apply leaves in the vectors when it throws is not modelled (they keep their values): no later call
      returns it. *)
  Definition step (w : world) (c : op) : outcome (world * out) :=
    match c with
    | Change m A => match nth_error (w_mats w) m with Some _ => Ok (mkworld (upd (w_mats w) m A) (w_shared w) (w_vecs w) (w_objs w), Done) | None => UB end
    (* amg.hh:442-469, 690-790 *)
    | Construct m =>
      match nth_error (w_mats w) m with
      | None => UB
      | Some A => obind (bld A) (fun o => match o with
          | None => UB
          | Some h => Ok (push_obj (mkworld (w_mats w) (w_shared w ++ [Some (mkshared m h h)]) (w_vecs w) (w_objs w)) (mkobj (length (w_shared w)) None true), Done)
          end)
      end
    (* amg.hh:392-404: no vectors *)
    | Copy g => match get (w_objs w) g with Some o => Ok (push_obj w (mkobj (o_shared o) None (o_conv o)), Done) | None => UB end
    (* implicitly declared copy assignment: all members, so the vectors become shared, too *)
    | Assign g h => match get (w_objs w) g, get (w_objs w) h with Some _, Some o => Ok (collect (set_obj w g (Some o)), Done) | _, _ => UB end
    (* amg.hh:222-225 *)
    | Recalculate g => obind (deref w g) (fun q => let '(o, s, A) := q in
        obind (recalculate A (fst (h_now s)) (snd (h_now s))) (fun h =>
        Ok (mkworld (w_mats w) (upd (w_shared w) (o_shared o) (Some (mkshared (h_user s) h (h_built s)))) (w_vecs w) (w_objs w), Done)))
    (* amg.hh:802-879 *)
    | Pre g x b => obind (deref w g) (fun q => let '(o, s, A) := q in
        match amg_pre inv eq0 fill1 fill2 fill3 (fst (with_finest A (h_now s))) (snd (with_finest A (h_now s))) x b with
        | Ok (x1, b1, st) => Ok (set_obj (mkworld (w_mats w) (w_shared w) (w_vecs w ++ [st]) (w_objs w)) g (Some (mkobj (o_shared o) (Some (length (w_vecs w))) (o_conv o))), Pair x1 b1)
        | Throw e => Ok (w, Raised e)
        | UB => UB
        end)
    (* amg.hh:892-921 *)
    | Apply g v d => obind (deref w g) (fun q => let '(o, s, A) := q in
        match o_vec o with
        | None => UB     (* lhs_ is null *)
        | Some k =>
          let h := with_finest A (h_now s) in
          match amg_apply (csolve (snd (h_built s)) (snd h)) damp preSteps postSteps gamma (levels_of (fst (h_built s)) (fst h)) (nth k (w_vecs w) nil) (o_conv o) v d with
          | Ok (v1, st1, c1) => Ok (set_obj (mkworld (w_mats w) (w_shared w) (upd (w_vecs w) k st1) (w_objs w)) g (Some (mkobj (o_shared o) (Some k) c1)), Vec v1)
          | Throw e => Ok (set_obj w g (Some (mkobj (o_shared o) (Some k) false)), Raised e)
          | UB => UB
          end
        end)
    (* amg.hh:1139-1163: post of the sequential smoothers does nothing; lhs_ is dereferenced *)
    | Post g => obind (deref w g) (fun q => let '(o, s, A) := q in
        match o_vec o with None => UB | Some _ => Ok (set_obj w g (Some (mkobj (o_shared o) None (o_conv o))), Done) end)
    | Destroy g => match get (w_objs w) g with Some _ => Ok (collect (set_obj w g None), Done) | None => UB end
    end.
  Fixpoint run (w : world) (cs : list op) : outcome (world * list out) :=
    match cs with
    | nil => Ok (w, nil)
    | c :: t => obind (step w c) (fun r => obind (run (fst r) t) (fun q => Ok (fst q, snd r :: snd q)))
    end.
  Definition init (mats : list (smat R)) : world := mkworld mats nil nil nil.

  (** ** Specification *)
  (** the hierarchy of Galerkin products for the matrix [A], with the aggregates and patterns that were chosen for [A0] *)
  Definition hierarchy_for (A0 A : smat R) (h : mhier) : Prop :=
    exists ls0 C0, bld A0 = Ok (Some (ls0, C0)) /\ hierarchy_of (fst h) (snd h) /\ next (fst h) (snd h) = A /\
      map snd (fst h) = map snd ls0 /\ map pat (map fst (fst h) ++ [snd h]) = map pat (map fst ls0 ++ [C0]).
  (** What one has to know: the present values of the matrices; for every AMG that was constructed and its copies the values of its matrix when it was constructed and when one of
      them was recalculated for the last time; and for each object whether it is between pre and post, and whether a coarse solve failed *)
  Record family : Type := mkfamily { f_mat : nat; f_built : smat R; f_last : smat R }.
  Record aobj : Type := mkaobj { a_fam : nat; a_ready : bool; a_failed : bool }.
  Record abs : Type := mkabs { a_mats : list (smat R); a_fams : list family; a_objs : list (option aobj) }.
  Definition start (mats : list (smat R)) : abs := mkabs mats nil nil.
  Definition value (a : abs) (f : family) : smat R := nth (f_mat f) (a_mats a) nil.
  (** object g, its family and the present value of its matrix *)
  Definition object (a : abs) (g : nat) (o : aobj) (f : family) (A : smat R) : Prop :=
    nth_error (a_objs a) g = Some (Some o) /\ nth_error (a_fams a) (a_fam o) = Some f /\ A = value a f.
  Definition set_aobj (a : abs) (g : nat) (o : option aobj) : abs := mkabs (a_mats a) (a_fams a) (upd (a_objs a) g o).
  Definition legal (a : abs) (c : op) : Prop :=
    match c with
    | Change m A => exists B, nth_error (a_mats a) m = Some B /\ pat A = pat B
    | Construct m => m < length (a_mats a)
    | Copy g | Recalculate g | Destroy g => exists o f A, object a g o f A
    | Assign g h => (exists o f A, object a g o f A) /\ (exists o f A, object a h o f A)
    | Pre g x b => exists o f A, object a g o f A /\ length x = length A /\ length b = length A
    | Apply g v d => exists o f A, object a g o f A /\ length v = length A /\ length d = length A /\ a_ready o = true
    | Post g => exists o f A, object a g o f A /\ a_ready o = true
    end.
  (** The operator that AMG::apply is: with [B0 .. Bl] the Galerkin hierarchy for the matrix at construction and [C0 .. Cl] the one for the matrix at the last recalculation, the
      cycle with the matrices A, C1 .. Cl, the smoothers constructed for B0 .. B(l-1) and the coarse solver constructed for Bl *)
  Definition applied (f : family) (A : smat R) (failed : bool) (d : vec R) (failed' : bool) (r : out) : Prop :=
    exists hb hr, hierarchy_for (f_built f) (f_built f) hb /\ hierarchy_for (f_built f) (f_last f) hr /\
      let h := with_finest A hr in
      let L := levels_of (fst hb) (fst h) in
      let nc := length (snd h) in
      let sv := csolve (snd hb) (snd h) in
      failed' = failed || negb (solves sv nc (coarse_rhs sv damp preSteps postSteps gamma nc L d)) /\
      r = if failed' && negb (length L =? 0) then Raised EMath else Vec (cycle sv damp preSteps postSteps gamma nc L d).
  Definition expect (a : abs) (c : op) (a' : abs) (r : out) : Prop :=
    match c with
    | Change m A => a' = mkabs (upd (a_mats a) m A) (a_fams a) (a_objs a) /\ r = Done
    | Construct m => let A := nth m (a_mats a) nil in a' = mkabs (a_mats a) (a_fams a ++ [mkfamily m A A]) (a_objs a ++ [Some (mkaobj (length (a_fams a)) false false)]) /\ r = Done
    | Copy g => exists o f A, object a g o f A /\ a' = mkabs (a_mats a) (a_fams a) (a_objs a ++ [Some (mkaobj (a_fam o) false (a_failed o))]) /\ r = Done
    | Assign g h => exists o f A, object a h o f A /\ a' = set_aobj a g (Some o) /\ r = Done
    | Recalculate g => exists o f A, object a g o f A /\ a' = mkabs (a_mats a) (upd (a_fams a) (a_fam o) (mkfamily (f_mat f) (f_built f) A)) (a_objs a) /\ r = Done
    | Pre g x b => exists o f A, object a g o f A /\
        ((exists x1, (forall k, k < length A -> decoupled A k -> exists u, inv (den A k k) = Some u) /\ length x1 = length A /\
            (forall k, k < length A -> (decoupled A k -> sum (length A) (fun j => den A k j * vget x1 j) = vget b k) /\ (~ decoupled A k -> vget x1 k = vget x k)) /\
            a' = set_aobj a g (Some (mkaobj (a_fam o) true (a_failed o))) /\ r = Pair x1 b) \/
         ((exists k, k < length A /\ decoupled A k /\ inv (den A k k) = None) /\ a' = a /\ r = Raised EFMatrix))
    | Apply g v d => exists o f A failed', object a g o f A /\ applied f A (a_failed o) d failed' r /\ a' = set_aobj a g (Some (mkaobj (a_fam o) true failed'))
    | Post g => exists o f A, object a g o f A /\ a' = set_aobj a g (Some (mkaobj (a_fam o) false (a_failed o))) /\ r = Done
    | Destroy g => a' = set_aobj a g None /\ r = Done
    end.
  Inductive expects : abs -> list op -> abs -> list out -> Prop :=
  | expects_nil a : expects a nil a nil
  | expects_cons a c a1 r cs a2 rs : expect a c a1 r -> expects a1 cs a2 rs -> expects a (c :: cs) a2 (r :: rs).
  (** every call is legal after whatever the specification allows to have happened before *)
  Inductive legal_history : abs -> list op -> Prop :=
  | legal_nil a : legal_history a nil
  | legal_cons a c cs : legal a c -> (forall a' r, expect a c a' r -> legal_history a' cs) -> legal_history a (c :: cs).
  Definition good (A : smat R) : Prop := mat_wf (length A) (length A) A /\ sym_pat A.

  Hypothesis inv_ok : forall a b, inv a = Some b -> a * b = r1 /\ b * a = r1.
  Hypothesis eq0_ok : forall a, eq0 a = true <-> a = r0.
  Hypothesis fill1_len : forall k, length (fill1 k) = k.
  Hypothesis fill2_len : forall k, length (fill2 k) = k.
  Hypothesis fill3_len : forall k, length (fill3 k) = k.
  Hypothesis spre_len : forall B A x d, length B = length A -> length x = length A -> length d = length A -> length (spre B A x d) = length A.
  Hypothesis spost_len : forall B A x d, length B = length A -> length x = length A -> length d = length A -> length (spost B A x d) = length A.
  Hypothesis csolve_len : forall B C u b, length B = length C -> length u = length C -> length b = length C ->
    length (fst (fst (csolve B C u b))) = length C /\ length (snd (fst (csolve B C u b))) = length C.
  Hypothesis bld_ok : forall A, good A -> exists ls C, bld A = Ok (Some (ls, C)) /\ next ls C = A /\ hierarchy_of ls C.

  (** *** Hierarchies *)
  Definition hmats (h : mhier) : list (smat R) := map fst (fst h) ++ [snd h].
  Definition sizes (h : mhier) : list nat := map (@length _) (hmats h).
  Lemma sizes_pat (h h' : mhier) : map pat (hmats h) = map pat (hmats h') -> sizes h = sizes h'.
  Proof.
    unfold sizes. intros H. assert (K : forall l : list (smat R), map (@length _) l = map (@length _) (map pat l)).
    { intros l. rewrite map_map. apply map_ext. intros A. unfold pat. symmetry. apply map_length. }
    rewrite (K (hmats h)), (K (hmats h')), H. reflexivity.
  Qed.
  Lemma next_pat (h h' : mhier) : map pat (hmats h) = map pat (hmats h') -> pat (next (fst h) (snd h)) = pat (next (fst h') (snd h')).
  Proof.
    unfold hmats. destruct h as [[|[A a] ls] C], h' as [[|[A' a'] ls'] C']; cbn [fst snd map app next]; intros H; injection H; intros; auto;
      try (destruct ls; discriminate); try (destruct ls'; discriminate).
  Qed.
  Lemma hfor_built A : good A -> exists h, bld A = Ok (Some h) /\ hierarchy_for A A h.
  Proof. intros HG. destruct (bld_ok A HG) as (ls & C & E & N & H). exists (ls, C). split; auto. exists ls, C. auto 10. Qed.
  Lemma hfor_pats A0 A A' h h' : hierarchy_for A0 A h -> hierarchy_for A0 A' h' -> map snd (fst h) = map snd (fst h') /\ map pat (hmats h) = map pat (hmats h').
  Proof. intros (l & C & E & _ & _ & S1 & P1) (l' & C' & E' & _ & _ & S2 & P2). rewrite E in E'. injection E' as <- <-. unfold hmats. split; congruence. Qed.
  Lemma hfor_pat A0 A h : good A0 -> hierarchy_for A0 A h -> pat A = pat A0.
  Proof.
    intros HG HF. destruct (hfor_built A0 HG) as (h0 & E & H0). destruct (hfor_pats _ _ _ _ _ HF H0) as [_ P]. apply next_pat in P.
    destruct HF as (? & ? & _ & _ & N & _), H0 as (? & ? & _ & _ & N0 & _). congruence.
  Qed.
  Lemma hfor_unique A0 A h h' : hierarchy_for A0 A h -> hierarchy_for A0 A h' -> h = h'.
  Proof.
    intros H H'. destruct (hfor_pats _ _ _ _ _ H H') as [S P]. destruct H as (? & ? & _ & H & N & _), H' as (? & ? & _ & H' & N' & _). destruct h as [ls C], h' as [ls' C']. cbn [fst snd] in *.
    destruct (C59_unique ls ls' C C' H H' S P) as [-> ->]; congruence.
  Qed.
  Lemma good_pat A B : pat A = pat B -> good B -> good A.
  Proof.
    intros HP [HW HS]. pose proof (pat_length _ _ HP) as HL. split; [rewrite HL; apply (pat_wf _ B); auto|]. intros i j Hi Hs. apply (pat_instored _ _ HP). apply HS; [lia|]. apply (pat_instored _ _ HP). exact Hs.
  Qed.
  Lemma levels_ok (hb h : mhier) : sizes hb = sizes h -> hierarchy_of (fst h) (snd h) -> hier_ok (length (snd h)) (levels_of (fst hb) (fst h)) /\ dim (length (snd h)) (levels_of (fst hb) (fst h)) = length (next (fst h) (snd h)) /\
    map (fun l => length (l_A l)) (levels_of (fst hb) (fst h)) ++ [length (snd h)] = sizes h.
  Proof.
    destruct hb as [lb Cb], h as [ls C]. unfold sizes, hmats. cbn [fst snd]. revert ls. induction lb as [|[B b] lb IH]; intros [|[A agg] ls] HS HH; cbn [map app fst] in HS;
      try (injection HS as HS0 HS; destruct lb; discriminate); try (injection HS as HS0 HS; destruct ls; discriminate); cbn [levels_of]; [cbn; auto|].
    injection HS as HS0 HS. cbn [hierarchy_of] in HH. destruct HH as [(HA & HB & HG & _) HH]. destruct (IH ls HS HH) as (I1 & I2 & I3). cbn [hier_ok dim l_A next fst map app] in *. split; [|split; [reflexivity|rewrite I3; reflexivity]].
    split; auto. rewrite I2. unfold level_ok. cbn [l_A l_agg l_pre l_post]. auto.
  Qed.
  Lemma with_finest_ok (hb h : mhier) A : sizes hb = sizes h -> hierarchy_of (fst h) (snd h) -> mat_wf (length A) (length A) A -> pat A = pat (next (fst h) (snd h)) ->
    let h' := with_finest A h in
    hier_ok (length (snd h')) (levels_of (fst hb) (fst h')) /\ dim (length (snd h')) (levels_of (fst hb) (fst h')) = length A /\
    map (fun l => length (l_A l)) (levels_of (fst hb) (fst h')) ++ [length (snd h')] = sizes h /\ next (fst h') (snd h') = A.
  Proof.
    intros HS HH HW HP. pose proof (pat_length _ _ HP) as HL. destruct (levels_ok hb h HS HH) as (H1 & H2 & H3). destruct hb as [lb Cb], h as [ls C]. cbn [fst snd] in *. unfold with_finest. cbn [fst snd].
    destruct ls as [|[A' agg] ls]; cbn [fst snd next] in *.
    - destruct lb as [|[B b] lb]; cbn [levels_of]; [|cbn in *; destruct lb; discriminate]. cbn [hier_ok dim map app levels_of] in *. rewrite HL. auto.
    - destruct lb as [|[B b] lb]; cbn [levels_of] in *; [cbn in HS; destruct ls; discriminate|]. cbn [hier_ok dim map app l_A] in *. split; [|split; [reflexivity|split; [rewrite HL; auto|reflexivity]]].
      destruct H1 as [H0 H1]. split; auto. unfold level_ok in *. cbn [l_A l_agg l_pre l_post] in *. rewrite HL in *. destruct H0 as (K1 & K2 & K3 & K4). split; auto. split; auto.
      assert (HB : length B = length A') by (unfold sizes, hmats in HS; cbn in HS; injection HS; auto).
      split; intros x d Hx Hd; rewrite <- HL; [apply spre_len|apply spost_len]; congruence.
  Qed.
  Lemma shape_sizes nc (L : list (@level R)) st : shape nc L st <-> Forall2 sized (map (fun l => length (l_A l)) L ++ [nc]) st.
  Proof.
    revert st. induction L as [|l L IH]; intros st; cbn [map app shape].
    - split; [destruct st as [|s [|]]; intros H; try contradiction; repeat constructor; apply H|]. intros H. inversion H as [|? ? ? ? S1 S2]; subst. inversion S2; subst. exact S1.
    - split; [destruct st; intros H; [contradiction|]; destruct H as [H1 H2]; constructor; auto; apply IH; auto|]. intros H. inversion H; subst. split; auto. apply IH; auto.
  Qed.
  Lemma sized_fun n m (s : @lst R) : sized n s -> sized m s -> n = m.
  Proof. intros (H & _) (H' & _). congruence. Qed.
  Lemma sizes_fun l l' (st : list (@lst R)) : Forall2 sized l st -> Forall2 sized l' st -> l = l'.
  Proof. intros H. revert l'. induction H as [|n s l st H1 H2 IH]; intros l' H'; inversion H'; subst; auto. f_equal; [eapply sized_fun; eauto|auto]. Qed.

  (** *** The objects follow the specification *)
  Definition orel (w : world) (o : option obj) (ao : option aobj) : Prop :=
    match o, ao with
    | None, None => True
    | Some o, Some ao => o_shared o = a_fam ao /\ o_conv o = negb (a_failed ao) /\ exists s, get (w_shared w) (o_shared o) = Some s /\
        match o_vec o with None => a_ready ao = false | Some k => a_ready ao = true /\ k < length (w_vecs w) /\ Forall2 sized (sizes (h_built s)) (nth k (w_vecs w) nil) end
    | _, _ => False
    end.
  Definition frel (mats : list (smat R)) (f : family) : Prop := exists B, nth_error mats (f_mat f) = Some B /\ good (f_built f) /\ pat B = pat (f_built f).
  Definition srel (fams : list family) (i : nat) (s : shared) : Prop :=
    exists f, nth_error fams i = Some f /\ h_user s = f_mat f /\ hierarchy_for (f_built f) (f_built f) (h_built s) /\ hierarchy_for (f_built f) (f_last f) (h_now s).
  Definition msrel (w : world) (a : abs) : Prop :=
    w_mats w = a_mats a /\ Forall good (a_mats a) /\ length (w_shared w) = length (a_fams a) /\ Forall (frel (a_mats a)) (a_fams a) /\
    forall i s, get (w_shared w) i = Some s -> srel (a_fams a) i s.
  Definition rel (w : world) (a : abs) : Prop := msrel w a /\ Forall2 (orel w) (w_objs w) (a_objs a).

  Lemma nth_error_updx {T} (l : list T) i j x : i < length l -> nth_error (upd l i x) j = if j =? i then Some x else nth_error l j.
  Proof.
    intros H. rewrite nth_error_upd. rewrite Nat.eqb_sym. destruct (Nat.eqb_spec j i) as [->|]; auto. destruct (Nat.ltb_spec i (length l)); auto. lia.
  Qed.
  Lemma get_upd {T} (l : list (option T)) i j x : i < length l -> get (upd l i x) j = if j =? i then x else get l j.
  Proof. intros H. unfold get. rewrite nth_error_updx by auto. destruct (j =? i); auto. destruct x; auto. Qed.
  Lemma get_lt {T} (l : list (option T)) i x : get l i = Some x -> i < length l.
  Proof. unfold get. intros H. apply nth_error_Some. intros E. rewrite E in H. discriminate. Qed.
  Lemma get_app {T} (l : list (option T)) q i x : get l i = Some x -> get (l ++ q) i = Some x.
  Proof. intros H. pose proof (get_lt _ _ _ H). unfold get in *. rewrite nth_error_app1 by auto. exact H. Qed.
  Lemma F2_nth {T U} (P : T -> U -> Prop) l l' i y : Forall2 P l l' -> nth_error l' i = Some y -> exists x, nth_error l i = Some x /\ P x y.
  Proof. intros H. revert i. induction H; intros [|i] E; cbn in *; try discriminate; [injection E as <-; eauto|auto]. Qed.
  Lemma F2_upd {T U} (P : T -> U -> Prop) l l' i x y : Forall2 P l l' -> P x y -> Forall2 P (upd l i x) (upd l' i y).
  Proof. intros H HP. revert i. induction H; intros [|i]; cbn [upd]; constructor; auto. Qed.
  Lemma F2_mono {T U} (P Q : T -> U -> Prop) l l' : (forall x y, P x y -> Q x y) -> Forall2 P l l' -> Forall2 Q l l'.
  Proof. intros H. induction 1; constructor; auto. Qed.
  Lemma F2_len {T U} (P : T -> U -> Prop) l l' : Forall2 P l l' -> length l = length l'.
  Proof. induction 1; cbn; congruence. Qed.

  (** changes of the vectors and of the shared parts that the objects do not notice *)
  Lemma orel_mono w w' : (forall i s, get (w_shared w) i = Some s -> exists s', get (w_shared w') i = Some s' /\ sizes (h_built s') = sizes (h_built s)) ->
    (forall k, k < length (w_vecs w) -> k < length (w_vecs w') /\ forall l, Forall2 sized l (nth k (w_vecs w) nil) -> Forall2 sized l (nth k (w_vecs w') nil)) ->
    forall o ao, orel w o ao -> orel w' o ao.
  Proof.
    intros HS HV [o|] [ao|] H; cbn [orel] in *; auto. destruct H as (E1 & E2 & s & Es & HO). split; auto. split; auto. destruct (HS _ _ Es) as (s' & Es' & Z). exists s'. split; auto.
    destruct (o_vec o) as [k|]; auto. destruct HO as (H1 & H2 & H3). destruct (HV k H2) as [K1 K2]. split; auto. split; auto. rewrite Z. auto.
  Qed.
  Lemma used_spec objs i : used objs i = true <-> exists g o, get objs g = Some o /\ o_shared o = i.
  Proof.
    unfold used. rewrite existsb_exists. split.
    - intros ([o|] & I & E); [|discriminate]. apply Nat.eqb_eq in E. apply In_nth_error in I. destruct I as (g & I). exists g, o. unfold get. rewrite I. auto.
    - intros (g & o & I & E). exists (Some o). unfold get in I. destruct (nth_error objs g) as [[o'|]|] eqn:N; try discriminate. injection I as ->. split; [eapply nth_error_In; eauto|apply Nat.eqb_eq; auto].
  Qed.
  Lemma get_collect objs (l : list (option shared)) : forall k i, get (map (fun p => if used objs (fst p) then snd p else None) (combine (seq k (length l)) l)) i = if used objs (k + i)%nat then get l i else None.
  Proof.
    induction l as [|x l IH]; intros k i.
    - cbn [length seq combine map]. unfold get. destruct i; cbn; destruct (used _ _); reflexivity.
    - cbn [length seq combine map fst snd]. destruct i as [|i]; cbn [get nth_error].
      + rewrite Nat.add_0_r. unfold get. cbn [nth_error]. destruct (used objs k); auto.
      + specialize (IH (S k) i). unfold get in *. cbn [nth_error]. rewrite IH. replace (S k + i)%nat with (k + S i)%nat by lia. reflexivity.
  Qed.
  Lemma collect_rel w a : rel w a -> rel (collect w) a.
  Proof.
    intros ((M1 & M2 & M3 & M4 & M5) & HO). assert (GC : forall i, get (w_shared (collect w)) i = if used (w_objs w) i then get (w_shared w) i else None) by (intros i; apply (get_collect (w_objs w) (w_shared w) 0 i)).
    split; [split; [|split; [|split; [|split]]]; auto|].
    - unfold collect. cbn [w_shared]. rewrite map_length, combine_length, seq_length. lia.
    - intros i s. rewrite GC. destruct (used _ _); [auto|discriminate].
    - unfold collect at 1. cbn [w_objs]. assert (US : forall g o, nth_error (w_objs w) g = Some (Some o) -> used (w_objs w) (o_shared o) = true) by (intros g o E; apply used_spec; exists g, o; unfold get; rewrite E; auto).
      assert (Q : forall l l', (forall o, In (Some o) l -> used (w_objs w) (o_shared o) = true) -> Forall2 (orel w) l l' -> Forall2 (orel (collect w)) l l').
      { intros l l' HI. induction 1 as [|o ao l l' H1 H2 IH]; constructor; [|apply IH; intros; apply HI; right; auto].
        destruct o as [o|], ao as [ao|]; cbn [orel] in *; auto. destruct H1 as (E1 & E2 & s & Es & K). split; auto. split; auto. exists s. rewrite GC, HI by (left; auto). auto. }
      apply Q; auto. intros o I. apply In_nth_error in I. destruct I as (g & I). eauto.
  Qed.
  Lemma set_rel w a g o ao : rel w a -> orel w o ao -> rel (set_obj w g o) (set_aobj a g ao).
  Proof. intros (HM & HO) H. split; [exact HM|]. cbn [set_obj set_aobj w_objs a_objs]. apply (F2_upd (orel (set_obj w g o))); auto. Qed.
  Lemma push_rel w a o ao : rel w a -> orel w (Some o) (Some ao) -> rel (push_obj w o) (mkabs (a_mats a) (a_fams a) (a_objs a ++ [Some ao])).
  Proof. intros (HM & HO) H. split; [exact HM|]. cbn [push_obj w_objs a_objs]. apply Forall2_app; [exact HO|constructor; [exact H|constructor]]. Qed.

  Lemma deref_ok w a g ao f A : rel w a -> object a g ao f A ->
    exists o s, deref w g = Ok (o, s, A) /\ get (w_objs w) g = Some o /\ orel w (Some o) (Some ao) /\ get (w_shared w) (o_shared o) = Some s /\ o_shared o = a_fam ao /\ h_user s = f_mat f /\
      hierarchy_for (f_built f) (f_built f) (h_built s) /\ hierarchy_for (f_built f) (f_last f) (h_now s) /\ good (f_built f) /\ pat A = pat (f_built f) /\ good A /\ sizes (h_built s) = sizes (h_now s) /\
      hierarchy_of (fst (h_now s)) (snd (h_now s)) /\ pat A = pat (next (fst (h_now s)) (snd (h_now s))).
  Proof.
    intros ((M1 & M2 & M3 & M4 & M5) & HO) (E1 & E2 & E3). destruct (F2_nth _ _ _ _ _ HO E1) as ([o|] & Eo & RO); [|contradiction]. pose proof RO as (R1 & R2 & s & Es & R3).
    exists o, s. destruct (M5 _ _ Es) as (f' & F1 & F2 & F3 & F4). rewrite R1, E2 in F1. injection F1 as <-. rewrite Forall_forall in M4. destruct (M4 f) as (B & B1 & B2 & B3); [eapply nth_error_In; eauto|].
    assert (EA : A = B) by (rewrite E3; unfold value; apply nth_error_nth with (d := nil) in B1; exact B1). subst B. unfold deref, get. rewrite Eo. fold (get (w_shared w) (o_shared o)). rewrite Es, M1, F2, B1.
    split; auto. split; auto. split; auto. split; auto. split; auto. split; auto. split; auto. split; auto. split; auto. split; auto. split; [eapply good_pat; eauto|]. split; [apply sizes_pat; eapply hfor_pats; eauto|].
    pose proof (hfor_pat _ _ _ B2 F4) as PL. destruct F4 as (? & ? & _ & H & N & _). split; auto. rewrite N. congruence.
  Qed.

  Lemma step_ok w a c : rel w a -> legal a c -> exists w' r a', step w c = Ok (w', r) /\ expect a c a' r /\ rel w' a'.
  Proof.
    intros HR HL. pose proof HR as ((M1 & M2 & M3 & M4 & M5) & HO). destruct c as [m A|m|g|g h|g|g x b|g v d|g|g]; cbn [legal step expect] in *.
    - destruct HL as (B & EB & HP). rewrite M1, EB. eexists _, _, _. split; [reflexivity|]. split; [split; reflexivity|]. assert (Hm : m < length (a_mats a)) by (apply nth_error_Some; congruence).
      split; [split; [|split; [|split; [|split]]]; cbn [w_mats a_mats w_shared a_fams]; auto|exact HO].
      + rewrite Forall_forall in *. intros X I. apply In_nth_error in I. destruct I as (j & I). rewrite nth_error_updx in I by auto. destruct (j =? m); [injection I as <-; apply (good_pat A B); auto; apply M2; eapply nth_error_In; eauto|].
        apply M2. eapply nth_error_In; eauto.
      + rewrite Forall_forall in *. intros f I. destruct (M4 f I) as (B' & B1 & B2 & B3). unfold frel. rewrite nth_error_updx by auto. destruct (Nat.eqb_spec (f_mat f) m) as [E|E]; [|exists B'; auto].
        exists A. split; auto. split; auto. rewrite E, EB in B1. injection B1 as <-. congruence.
    - assert (exists A, nth_error (a_mats a) m = Some A) as (A & EA) by (destruct (nth_error (a_mats a) m) eqn:E; eauto; apply nth_error_None in E; lia). assert (EW : nth_error (w_mats w) m = Some A) by (rewrite M1; exact EA). rewrite EW.
      assert (HA : good A) by (rewrite Forall_forall in M2; apply M2; eapply nth_error_In; eauto). destruct (hfor_built A HA) as (h & Eh & HF). rewrite Eh. cbn [obind].
      rewrite (nth_error_nth _ _ nil EA). eexists _, _, _. split; [reflexivity|]. split; [split; reflexivity|].
      set (w1 := mkworld (w_mats w) (w_shared w ++ [Some (mkshared m h h)]) (w_vecs w) (w_objs w)). set (a1 := mkabs (a_mats a) (a_fams a ++ [mkfamily m A A]) (a_objs a)).
      assert (G1 : get (w_shared w1) (length (w_shared w)) = Some (mkshared m h h)) by (unfold get, w1; cbn [w_shared]; rewrite nth_error_app2, Nat.sub_diag by lia; reflexivity).
      assert (R1 : rel w1 a1).
      { split; [split; [|split; [|split; [|split]]]; auto|].
        - cbn [w1 a1 w_shared a_fams]. rewrite !app_length. cbn [length]. lia.
        - cbn [a1 a_fams a_mats]. apply Forall_app. split; auto. constructor; auto. exists A. cbn [f_mat f_built]. auto.
        - intros i s Es. unfold get, w1 in Es. cbn [w_shared] in Es. destruct (Nat.lt_ge_cases i (length (w_shared w))) as [Hi|Hi].
          + rewrite nth_error_app1 in Es by auto. destruct (M5 i s Es) as (f & F1 & F2). exists f. split; auto. cbn [a1 a_fams]. rewrite nth_error_app1 by lia. exact F1.
          + rewrite nth_error_app2 in Es by auto. destruct (i - length (w_shared w))%nat as [|q] eqn:EQ; [|cbn in Es; destruct q; discriminate]. cbn in Es. injection Es as <-.
            exists (mkfamily m A A). cbn [a1 a_fams]. rewrite nth_error_app2 by lia. replace (i - length (a_fams a))%nat with 0 by lia. cbn. auto.
        - refine (F2_mono _ _ _ _ (orel_mono w w1 _ _) HO).
          + intros i s Es. exists s. split; auto. apply get_app. exact Es.
          + cbn [w1 w_vecs]. auto. }
      refine (push_rel w1 a1 _ _ R1 _). cbn [orel o_shared o_conv a_fam a_failed o_vec a_ready negb]. split; [exact M3|]. split; auto. exists (mkshared m h h). auto.
    - destruct HL as (ao & f & A & HOb). destruct (deref_ok _ _ _ _ _ _ HR HOb) as (o & s & E & EG & RO & Es & _). rewrite EG. eexists _, _, _. split; [reflexivity|]. split; [exists ao, f, A; auto|].
      apply push_rel; auto. destruct RO as (R1 & R2 & R3). cbn [orel o_shared o_conv a_fam a_failed o_vec a_ready]. split; auto. split; auto. exists s. auto.
    - destruct HL as ((ao & f & A & HOb) & (ao' & f' & A' & HOb')). destruct (deref_ok _ _ _ _ _ _ HR HOb) as (o & s & E & EG & RO & Es & _). destruct (deref_ok _ _ _ _ _ _ HR HOb') as (o' & s' & E' & EG' & RO' & Es' & _).
      rewrite EG, EG'. eexists _, _, _. split; [reflexivity|]. split; [exists ao', f', A'; auto|]. apply collect_rel, set_rel; auto.
    - destruct HL as (ao & f & A & HOb). destruct (deref_ok _ _ _ _ _ _ HR HOb) as (o & s & E & EG & RO & Es & R1 & HU & HB & HN & GB & PB & GA & SZ & HH & PN). rewrite E. cbn [obind].
      pose proof HN as (ls0 & C0 & Eb & _ & NN & S0 & P0). destruct (C59_recalculate (fst (h_now s)) (snd (h_now s)) A HH) as (ls' & C' & ER & N' & S' & P' & HH'); auto.
      { rewrite (pat_length _ _ (eq_sym PN)). apply (pat_wf _ A); [exact PN|apply GA]. }
      rewrite ER. cbn [obind]. eexists _, _, _. split; [reflexivity|]. split; [exists ao, f, A; auto|]. assert (HF : hierarchy_for (f_built f) A (ls', C')) by (exists ls0, C0; cbn [fst snd]; split; auto; split; auto; split; auto; split; congruence).
      assert (Hi : a_fam ao < length (a_fams a)) by (apply nth_error_Some; destruct HOb as (_ & K & _); congruence). pose proof (get_lt _ _ _ Es) as Hi'.
      split; [split; [|split; [|split; [|split]]]; cbn [w_mats a_mats w_shared a_fams]; auto|].
      + rewrite !upd_length. exact M3.
      + rewrite Forall_forall in *. intros f1 I. apply In_nth_error in I. destruct I as (j & I). rewrite nth_error_updx in I by auto. destruct (j =? a_fam ao); [|apply M4; eapply nth_error_In; eauto].
        injection I as <-. destruct (M4 f) as (B & B1); [destruct HOb as (_ & K & _); eapply nth_error_In; eauto|]. exists B. exact B1.
      + intros i s1. rewrite get_upd by auto. rewrite R1. unfold srel. rewrite nth_error_updx by auto. destruct (i =? a_fam ao); [|apply M5]. intros Es1. injection Es1 as <-.
        exists (mkfamily (f_mat f) (f_built f) A). cbn [f_mat f_built f_last h_user h_built h_now]. auto.
      + refine (F2_mono _ _ _ _ (orel_mono w _ _ _) HO); [|cbn [w_vecs]; auto]. intros i s1 Es1. cbn [w_shared]. rewrite get_upd by auto. destruct (Nat.eqb_spec i (o_shared o)) as [->|NE]; [|eauto].
        eexists. split; [reflexivity|]. cbn [h_built]. congruence.
    - destruct HL as (ao & f & A & HOb & Hx & Hb). destruct (deref_ok _ _ _ _ _ _ HR HOb) as (o & s & E & EG & RO & Es & R1 & HU & HB & HN & GB & PB & GA & SZ & HH & PN). rewrite E. cbn [obind].
      destruct (with_finest_ok (h_built s) (h_now s) A SZ HH (proj1 GA) PN) as (W1 & W2 & W3 & W4). set (h := with_finest A (h_now s)) in *.
      destruct (C72_pre inv eq0 inv_ok eq0_ok fill1 fill2 fill3 (fun _ _ d => d) (fun _ _ d => d) (fst h) (snd h) x b fill1_len fill2_len fill3_len) as (P1 & P2); rewrite ?W4; auto; [apply GA|]. rewrite W4 in P1, P2.
      assert (DEC : (forall k, k < length A -> decoupled A k -> exists u, inv (den A k k) = Some u) \/ (exists k, k < length A /\ decoupled A k /\ inv (den A k k) = None)).
      { assert (Q : forall m, (forall k, k < m -> k < length A -> decoupled A k -> exists u, inv (den A k k) = Some u) \/ (exists k, k < length A /\ decoupled A k /\ inv (den A k k) = None)).
        { induction m as [|m [IH|IH]]; [left; intros; lia| |right; exact IH]. destruct (Nat.lt_ge_cases m (length A)) as [Hm|Hm]; [|left; intros k K1 K2; apply IH; lia].
          destruct (row_case eq0 eq0_ok (length A) A m (proj1 GA) Hm) as [(_ & D)|(_ & D)].
          - destruct (inv (den A m m)) as [u|] eqn:Eu; [|right; eauto]. left. intros k K1 K2 K3. destruct (Nat.eq_dec k m) as [->|]; [eauto|apply IH; auto; lia].
          - left. intros k K1 K2 K3. destruct (Nat.eq_dec k m) as [->|]; [contradiction|apply IH; auto; lia]. }
        destruct (Q (length A)) as [K|K]; auto. }
      destruct DEC as [D|D].
      + destruct (P1 D) as (x1 & st & E1 & SH & L1 & HX). rewrite E1. eexists _, _, _. split; [reflexivity|]. split; [exists ao, f, A; split; [exact HOb|]; left; exists x1; auto|].
        set (w1 := mkworld (w_mats w) (w_shared w) (w_vecs w ++ [st]) (w_objs w)).
        assert (SS : Forall2 sized (sizes (h_built s)) st).
        { apply shape_sizes in SH. replace (sizes (h_built s)) with (map (fun l => length (l_A l)) (coarsen_smoother (fun _ _ d => d) (fun _ _ d => d) (fst h)) ++ [length (snd h)]); auto.
          rewrite SZ, <- W3. f_equal. unfold h. clear -SZ. destruct (h_built s) as [lb Cb], (h_now s) as [ls C]. unfold sizes, hmats in SZ. cbn [fst snd] in *.
          assert (Q : forall (lb ls : list (@mlevel R)), length lb = length ls -> map (fun l => length (l_A l)) (coarsen_smoother (fun _ _ d => d) (fun _ _ d => d) ls) = map (fun l => length (l_A l)) (levels_of lb ls)).
          { induction lb0 as [|[B b] lb0 IH]; intros [|[A1 a1] ls0] HL; cbn in *; try discriminate; auto. f_equal. apply IH. lia. }
          apply Q. apply (f_equal (@length _)) in SZ. rewrite !map_length, !app_length, !map_length in SZ. cbn [length] in SZ. unfold with_finest. cbn [fst snd]. destruct ls as [|[? ?] ?]; cbn [fst snd length] in *; unfold mlevel in *; lia. }
        assert (Rw : rel w1 a).
        { split; [exact (proj1 HR)|]. cbn [w1 w_objs]. refine (F2_mono _ _ _ _ (orel_mono w w1 _ _) HO); [cbn [w1 w_shared]; eauto|]. intros k Hk. cbn [w1 w_vecs]. rewrite app_length, app_nth1 by auto. cbn [length]. split; [lia|auto]. }
        apply set_rel; auto. destruct RO as (Q1 & Q2 & _). cbn [orel o_shared o_conv a_fam a_failed o_vec a_ready]. split; auto. split; auto. exists s. split; auto. split; auto. cbn [w1 w_vecs]. rewrite app_length. cbn [length].
        split; [lia|]. rewrite app_nth2, Nat.sub_diag by lia. exact SS.
      + rewrite (P2 D). eexists _, _, _. split; [reflexivity|]. split; [exists ao, f, A; split; [exact HOb|]; right; auto|exact HR].
    - destruct HL as (ao & f & A & HOb & Hv & Hd & HRd). destruct (deref_ok _ _ _ _ _ _ HR HOb) as (o & s & E & EG & RO & Es & R1 & HU & HB & HN & GB & PB & GA & SZ & HH & PN). rewrite E. cbn [obind].
      destruct RO as (Q1 & Q2 & s0 & Q3 & Q4). rewrite Es in Q3. injection Q3 as <-. destruct (o_vec o) as [k|] eqn:EV; [|congruence]. destruct Q4 as (_ & Hk & SS).
      destruct (with_finest_ok (h_built s) (h_now s) A SZ HH (proj1 GA) PN) as (W1 & W2 & W3 & W4). set (h := with_finest A (h_now s)) in *. set (L := levels_of (fst (h_built s)) (fst h)) in *.
      set (sv := csolve (snd (h_built s)) (snd h)). set (st := nth k (w_vecs w) nil) in *.
      assert (SH : shape (length (snd h)) L st) by (apply shape_sizes; rewrite W3, <- SZ; exact SS).
      assert (LC : length (snd (h_built s)) = length (snd h)).
      { assert (last (sizes (h_built s)) 0 = last (map (fun l => length (l_A l)) L ++ [length (snd h)]) 0) as K by (rewrite W3, SZ; reflexivity). unfold sizes, hmats in K. rewrite map_app in K. cbn [map] in K. rewrite !last_last in K. exact K. }
      destruct (C80_apply sv damp preSteps postSteps gamma (length (snd h))) with (ls := L) (st := st) (conv := o_conv o) (v := v) (d := d) as (T1 & T2); auto.
      { intros u b Hu Hb. apply csolve_len; auto. }
      { rewrite W2. exact Hv. } { rewrite W2. exact Hd. }
      set (ok := o_conv o && solves sv (length (snd h)) (coarse_rhs sv damp preSteps postSteps gamma (length (snd h)) L d)) in *.
      assert (FE : negb ok = a_failed ao || negb (solves sv (length (snd h)) (coarse_rhs sv damp preSteps postSteps gamma (length (snd h)) L d))) by (unfold ok; rewrite Q2, negb_andb, negb_involutive; reflexivity).
      assert (OR : forall w' c, w_shared w' = w_shared w -> k < length (w_vecs w') -> Forall2 sized (sizes (h_built s)) (nth k (w_vecs w') nil) -> orel w' (Some (mkobj (o_shared o) (Some k) c)) (Some (mkaobj (a_fam ao) true (negb c)))).
      { intros w' c K1 K2 K3. cbn [orel o_shared o_conv a_fam a_failed o_vec a_ready]. split; auto. split; [rewrite negb_involutive; reflexivity|]. exists s. rewrite K1. auto. }
      destruct (negb ok && negb (length L =? 0)) eqn:EF.
      + apply andb_true_iff in EF. destruct EF as [E1 E2]. apply negb_true_iff in E1, E2. apply Nat.eqb_neq in E2. rewrite (T1 ltac:(intros EL; rewrite EL in E2; apply E2; reflexivity) E1).
        eexists _, _, _. split; [reflexivity|]. split.
        { exists ao, f, A, (negb ok). split; [exact HOb|]. split; [|reflexivity]. exists (h_built s), (h_now s). split; auto. split; auto. fold h. cbv zeta. fold L sv. split; [exact FE|]. rewrite E1. cbn [negb andb]. destruct (Nat.eqb_spec (length L) 0); [contradiction|reflexivity]. }
        rewrite E1. apply set_rel; auto; apply (OR w false); auto.
      + assert (HC : L = nil \/ ok = true).
        { apply andb_false_iff in EF. destruct EF as [EF|EF]; apply negb_false_iff in EF; auto. left. apply Nat.eqb_eq in EF. destruct L; auto. discriminate. }
        destruct (T2 HC) as (st' & E2 & SH'). rewrite E2. eexists _, _, _. split; [reflexivity|]. split.
        { exists ao, f, A, (negb ok). split; [exact HOb|]. split; [|reflexivity]. exists (h_built s), (h_now s). split; auto. split; auto. fold h. cbv zeta. fold L sv. split; [exact FE|]. rewrite EF. reflexivity. }
        assert (SS' : Forall2 sized (sizes (h_built s)) st') by (rewrite SZ, <- W3; apply shape_sizes; exact SH').
        set (w1 := mkworld (w_mats w) (w_shared w) (upd (w_vecs w) k st') (w_objs w)).
        assert (Rw : rel w1 a).
        { split; [exact (proj1 HR)|]. cbn [w1 w_objs]. refine (F2_mono _ _ _ _ (orel_mono w w1 _ _) HO); [cbn [w1 w_shared]; eauto|]. intros j Hj. cbn [w1 w_vecs]. rewrite upd_length. split; [exact Hj|]. intros l Hl.
          destruct (Nat.eq_dec j k) as [->|NE]; [rewrite nth_upd_eq by auto; rewrite (sizes_fun _ _ _ Hl SS); exact SS'|rewrite nth_upd_ne by auto; exact Hl]. }
        apply set_rel; auto. apply OR; auto; cbn [w1 w_vecs]; [rewrite upd_length; auto|rewrite nth_upd_eq by auto; auto].
    - destruct HL as (ao & f & A & HOb & HRd). destruct (deref_ok _ _ _ _ _ _ HR HOb) as (o & s & E & EG & RO & Es & R1 & _). rewrite E. cbn [obind]. pose proof RO as (Q1 & Q2 & s0 & Q3 & Q4). destruct (o_vec o) as [k|] eqn:EV; [|congruence].
      eexists _, _, _. split; [reflexivity|]. split; [exists ao, f, A; auto|]. apply set_rel; auto. cbn [orel o_shared o_conv a_fam a_failed o_vec a_ready]. split; auto. split; auto. exists s. auto.
    - destruct HL as (ao & f & A & HOb). destruct (deref_ok _ _ _ _ _ _ HR HOb) as (o & s & E & EG & RO & Es & _). rewrite EG. eexists _, _, _. split; [reflexivity|]. split; [auto|]. apply collect_rel, set_rel; auto. exact Logic.I.
  Qed.

  Lemma run_ok cs : forall w a, rel w a -> legal_history a cs -> exists w' outs a', run w cs = Ok (w', outs) /\ expects a cs a' outs /\ rel w' a'.
  Proof.
    induction cs as [|c cs IH]; intros w a HR HL; cbn [run].
    - exists w, nil, a. split; auto. split; auto. constructor.
    - inversion HL as [|? ? ? H1 H2]; subst. destruct (step_ok w a c HR H1) as (w1 & r & a1 & E & X & R1). rewrite E. cbn [obind fst snd]. destruct (IH w1 a1 R1 (H2 _ _ X)) as (w2 & outs & a2 & E2 & X2 & R2).
      rewrite E2. cbn [obind fst snd]. exists w2, (r :: outs), a2. split; auto. split; auto. econstructor; eauto.
  Qed.
  Lemma init_rel mats : Forall good mats -> rel (init mats) (start mats).
  Proof. intros H. split; [split; [|split; [|split; [|split]]]; cbn; auto|constructor]. intros i s E. destruct i; discriminate. Qed.
  (** C80.  Every history of legal calls runs without undefined behaviour and returns what the specification says. *)
  Theorem C80_history mats cs : Forall good mats -> legal_history (start mats) cs ->
    exists w outs a, run (init mats) cs = Ok (w, outs) /\ expects (start mats) cs a outs.
  Proof. intros HM HL. destruct (run_ok cs _ _ (init_rel mats HM) HL) as (w & outs & a & E & X & _). eauto. Qed.

  (** The specification leaves no choice. *)
  Lemma object_fun a g o f A o' f' A' : object a g o f A -> object a g o' f' A' -> o = o' /\ f = f' /\ A = A'.
  Proof. intros (E1 & E2 & E3) (E1' & E2' & E3'). rewrite E1 in E1'. injection E1' as <-. rewrite E2 in E2'. injection E2' as <-. subst. auto. Qed.
  Lemma applied_fun f A fd d f1 r1 f2 r2 : applied f A fd d f1 r1 -> applied f A fd d f2 r2 -> f1 = f2 /\ r1 = r2.
  Proof.
    intros (hb & hr & H1 & H2 & H3 & H4) (hb' & hr' & K1 & K2 & K3 & K4). pose proof (hfor_unique _ _ _ _ H1 K1) as EB. pose proof (hfor_unique _ _ _ _ H2 K2) as ER.
    subst hb' hr'. split; [rewrite H3, K3; reflexivity|]. rewrite H4, K4, H3, K3. reflexivity.
  Qed.
  Theorem C80_determined a c a1 r1 a2 r2 : Forall good (a_mats a) -> expect a c a1 r1 -> expect a c a2 r2 -> a1 = a2 /\ r1 = r2.
  Proof.
    intros HM. destruct c as [m A|m|g|g h|g|g x b|g v d|g|g]; cbn [expect].
    - intros [-> ->] [-> ->]. auto.
    - intros [-> ->] [-> ->]. auto.
    - intros (o & f & A & H & -> & ->) (o' & f' & A' & H' & -> & ->). destruct (object_fun _ _ _ _ _ _ _ _ H H') as (-> & -> & ->). auto.
    - intros (o & f & A & H & -> & ->) (o' & f' & A' & H' & -> & ->). destruct (object_fun _ _ _ _ _ _ _ _ H H') as (-> & -> & ->). auto.
    - intros (o & f & A & H & -> & ->) (o' & f' & A' & H' & -> & ->). destruct (object_fun _ _ _ _ _ _ _ _ H H') as (-> & -> & ->). auto.
    - intros (o & f & A & H & Q) (o' & f' & A' & H' & Q'). destruct (object_fun _ _ _ _ _ _ _ _ H H') as (-> & -> & ->).
      destruct Q as [(x1 & P1 & P2 & P3 & -> & ->)|((k & K1 & K2 & K3) & -> & ->)], Q' as [(x2 & Q1 & Q2 & Q3 & -> & ->)|((k' & K1' & K2' & K3') & -> & ->)]; auto.
      + split; auto. f_equal. apply vec_ext; [congruence|]. intros k Hk. rewrite P2 in Hk. destruct (P3 k Hk) as [A1 A2], (Q3 k Hk) as [B1 B2].
        assert (HW : mat_wf (length A') (length A') A').
        { destruct H as (_ & _ & ->). unfold value in *. destruct (nth_in_or_default (f_mat f') (a_mats a) nil) as [I|E]; [rewrite Forall_forall in HM; apply HM; exact I|]. rewrite E in Hk. cbn in Hk. lia. }
        destruct (row_case eq0 eq0_ok (length A') A' k HW Hk) as [(_ & D)|(_ & D)]; [|rewrite A2, B2 by auto; reflexivity].
        specialize (A1 D). specialize (B1 D). destruct (P1 k Hk D) as (u & Eu). destruct (inv_ok _ _ Eu) as [_ U].
        rewrite (sum_single (length A') k) in A1 by (auto; intros j Hj NE; rewrite (proj2 D j NE); apply rmul_0_l).
        rewrite (sum_single (length A') k) in B1 by (auto; intros j Hj NE; rewrite (proj2 D j NE); apply rmul_0_l).
        transitivity (u * den A' k k * vget x1 k); [rewrite U; symmetry; apply rmul_1_l|]. rewrite <- rmul_assoc, A1, <- B1, rmul_assoc, U. apply rmul_1_l.
      + destruct (P1 k' K1' K2') as (u & E). congruence.
      + destruct (Q1 k K1 K2) as (u & E). congruence.
    - intros (o & f & A & fd & H & P & ->) (o' & f' & A' & fd' & H' & P' & ->). destruct (object_fun _ _ _ _ _ _ _ _ H H') as (-> & -> & ->). destruct (applied_fun _ _ _ _ _ _ _ _ P P') as (-> & ->). auto.
    - intros (o & f & A & H & -> & ->) (o' & f' & A' & H' & -> & ->). destruct (object_fun _ _ _ _ _ _ _ _ H H') as (-> & -> & ->). auto.
    - intros [-> ->] [-> ->]. auto.
  Qed.

  (** C80.  apply and post need a pre before them on the same object: after any legal history, on an object that was not prepared (pre was not called, or threw; post was called; it
      is a copy that was constructed from a prepared object), they dereference a null pointer. *)
  Lemma run_app cs1 cs2 : forall w, run w (cs1 ++ cs2) = obind (run w cs1) (fun p => obind (run (fst p) cs2) (fun q => Ok (fst q, snd p ++ snd q))).
  Proof.
    induction cs1 as [|c cs1 IH]; intros w; cbn [app run obind fst snd].
    - destruct (run w cs2) as [[? ?]| |]; reflexivity.
    - destruct (step w c) as [[w1 r]| |]; cbn [obind fst snd]; auto. rewrite IH. destruct (run w1 cs1) as [[w2 o2]| |]; cbn [obind fst snd]; auto. destruct (run w2 cs2) as [[? ?]| |]; reflexivity.
  Qed.
  Lemma expects_legal_rel mats cs a outs : Forall good mats -> legal_history (start mats) cs -> expects (start mats) cs a outs -> exists w, run (init mats) cs = Ok (w, outs) /\ rel w a.
  Proof.
    intros HM HL HX. assert (Q : forall cs w a1 a outs, rel w a1 -> legal_history a1 cs -> expects a1 cs a outs -> exists w', run w cs = Ok (w', outs) /\ rel w' a); [|apply (Q _ _ _ _ _ (init_rel mats HM) HL HX)].
    clear mats cs a outs HM HL HX. induction cs as [|c cs IH]; intros w a1 a outs HR HL HX; inversion HX as [|? ? a2 r ? ? rs X1 X2]; subst; cbn [run]; [eauto|].
    inversion HL as [|? ? ? H1 H2]; subst. destruct (step_ok w a1 c HR H1) as (w1 & r1 & a2' & E & X & R1). destruct (C80_determined a1 c a2' r1 a2 r) as [-> ->]; auto; [apply HR|].
    rewrite E. cbn [obind fst snd]. destruct (IH w1 a2 a rs R1 (H2 _ _ X1) X2) as (w2 & E2 & R2). rewrite E2. cbn. eauto.
  Qed.
  Theorem C80_protocol_refuted mats cs a outs g o f A v d : Forall good mats -> legal_history (start mats) cs -> expects (start mats) cs a outs ->
    object a g o f A -> a_ready o = false -> run (init mats) (cs ++ [Apply g v d]) = UB /\ run (init mats) (cs ++ [Post g]) = UB.
  Proof.
    intros HM HL HX HOb HN. destruct (expects_legal_rel mats cs a outs HM HL HX) as (w & E & RW). destruct (deref_ok _ _ _ _ _ _ RW HOb) as (o' & s & ED & _ & (_ & _ & s' & _ & RO) & _).
    rewrite !run_app, E. cbn [obind fst snd run step]. rewrite ED. cbn [obind]. destruct (o_vec o'); [|auto]. destruct RO as (K & _). congruence.
  Qed.
  (** C80.  The hierarchies, smoothers and coarse solver are destroyed with the last object that uses them, and not before. *)
  Definition alive (w : world) : Prop := forall i, get (w_shared w) i <> None <-> used (w_objs w) i = true.
  Lemma used_upd w g o o' i : get (w_objs w) g = Some o -> o_shared o' = o_shared o -> used (upd (w_objs w) g (Some o')) i = used (w_objs w) i.
  Proof.
    intros E ES. apply eq_true_iff_eq. pose proof (get_lt _ _ _ E) as HL. rewrite !used_spec. split; intros (j & q & Ej & Eq).
    - rewrite get_upd in Ej by auto. destruct (Nat.eqb_spec j g) as [->|NE]; [injection Ej as <-; exists g, o; split; auto; congruence|eauto].
    - destruct (Nat.eq_dec j g) as [->|NE]; [rewrite E in Ej; injection Ej as <-; exists g, o'; rewrite get_upd, Nat.eqb_refl by auto; split; auto; congruence|].
      exists j, q. rewrite get_upd by auto. destruct (Nat.eqb_spec j g); [contradiction|auto].
  Qed.
  Lemma used_app objs o i : used (objs ++ [Some o]) i = used objs i || (o_shared o =? i).
  Proof. unfold used. rewrite existsb_app. cbn [existsb]. rewrite orb_false_r. reflexivity. Qed.
  Lemma get_app_eq {T} (l : list (option T)) x i : get (l ++ [Some x]) i = if i =? length l then Some x else get l i.
  Proof.
    unfold get. destruct (Nat.eqb_spec i (length l)) as [->|NE]; [rewrite nth_error_app2, Nat.sub_diag by lia; reflexivity|].
    destruct (Nat.lt_ge_cases i (length l)) as [H|H]; [rewrite nth_error_app1 by auto; reflexivity|]. rewrite (proj2 (nth_error_None (l ++ [Some x]) i)) by (rewrite app_length; cbn [length]; lia).
    rewrite (proj2 (nth_error_None l i)) by lia. reflexivity.
  Qed.
  Lemma collect_alive w w' : w_shared w' = w_shared w -> (forall i, used (w_objs w') i = true -> get (w_shared w) i <> None) -> alive (collect w').
  Proof.
    intros ES HU i. unfold collect at 1. cbn [w_shared]. rewrite (get_collect (w_objs w') (w_shared w') 0 i), ES. cbn [Nat.add]. unfold collect. cbn [w_objs].
    destruct (used (w_objs w') i) eqn:U; [split; auto|split; [congruence|discriminate]].
  Qed.
  Lemma step_alive w a c w' r : rel w a -> alive w -> step w c = Ok (w', r) -> alive w'.
  Proof.
    intros HR HA HS. assert (GO : forall g, (exists o, get (w_objs w) g = Some o) \/ get (w_objs w) g = None) by (intros g; destruct (get (w_objs w) g); eauto).
    assert (DR : forall g q, deref w g = Ok q -> get (w_objs w) g = Some (fst (fst q))).
    { intros g q. unfold deref. destruct (get (w_objs w) g) as [o|]; [|discriminate]. destruct (get (w_shared w) (o_shared o)) as [s|]; [|discriminate]. destruct (nth_error (w_mats w) (h_user s)); [|discriminate]. intros E. injection E as <-. reflexivity. }
    destruct c as [m A|m|g|g h|g|g x b|g v d|g|g]; cbn [step] in HS.
    - destruct (nth_error (w_mats w) m); [injection HS as <- <-; exact HA|discriminate].
    - destruct (nth_error (w_mats w) m) as [A|]; [|discriminate]. destruct (bld A) as [[h|]| |]; cbn [obind] in HS; try discriminate. injection HS as <- <-. intros i. unfold push_obj. cbn [w_shared w_objs].
      rewrite get_app_eq, used_app. cbn [o_shared]. rewrite (Nat.eqb_sym (length (w_shared w)) i). destruct (i =? length (w_shared w)); [rewrite orb_true_r; split; [reflexivity|discriminate]|rewrite orb_false_r; apply HA].
    - destruct (GO g) as [(o & E)|E]; rewrite E in HS; [|discriminate]. injection HS as <- <-. intros i. unfold push_obj. cbn [w_shared w_objs]. rewrite used_app. cbn [o_shared]. rewrite (HA i).
      destruct (Nat.eqb_spec (o_shared o) i) as [<-|]; [|rewrite orb_false_r; tauto]. rewrite orb_true_r. split; auto. intros _. apply used_spec. eauto.
    - destruct (GO g) as [(og & Eg)|Eg]; rewrite Eg in HS; [|discriminate]. destruct (GO h) as [(o & E)|E]; rewrite E in HS; [|discriminate]. injection HS as <- <-. apply (collect_alive w); [reflexivity|].
      intros i HU. cbn [set_obj w_objs] in HU. apply used_spec in HU. destruct HU as (j & q & Ej & Eq). rewrite get_upd in Ej by (eapply get_lt; eauto). apply HA, used_spec.
      destruct (j =? g); [injection Ej as <-; eauto|eauto].
    - destruct (deref w g) as [[[o s] A]| |] eqn:ED; cbn [obind] in HS; try discriminate. destruct (recalculate _ _ _) as [h| |]; cbn [obind] in HS; try discriminate. injection HS as <- <-. intros i. cbn [w_shared w_objs].
      apply DR in ED. cbn [fst] in ED. assert (G : get (w_shared w) (o_shared o) <> None) by (apply HA, used_spec; eauto). destruct (get (w_shared w) (o_shared o)) as [s'|] eqn:ES; [|congruence].
      rewrite get_upd by (eapply get_lt; eauto). destruct (Nat.eqb_spec i (o_shared o)) as [->|]; [|apply HA]. split; [intros _; apply used_spec; eauto|discriminate].
    - destruct (deref w g) as [[[o s] A]| |] eqn:ED; cbn [obind] in HS; try discriminate. destruct (amg_pre _ _ _ _ _ _ _ _ _) as [[[x1 b1] st]| |]; try discriminate; injection HS as <- <-; [|exact HA].
      intros i. apply DR in ED. cbn [set_obj w_shared w_objs]. rewrite (used_upd w g o) by (auto; exact ED). apply HA.
    - destruct (deref w g) as [[[o s] A]| |] eqn:ED; cbn [obind] in HS; try discriminate. destruct (o_vec o) as [k|]; [|discriminate]. cbv zeta in HS. apply DR in ED.
      destruct (amg_apply _ _ _ _ _ _ _ _ _ _) as [[[v1 st1] c1]| |]; try discriminate; injection HS as <- <-; intros i; cbn [set_obj w_shared w_objs]; rewrite (used_upd w g o) by (auto; exact ED); apply HA.
    - destruct (deref w g) as [[[o s] A]| |] eqn:ED; cbn [obind] in HS; try discriminate. destruct (o_vec o) as [k|]; [|discriminate]. apply DR in ED. injection HS as <- <-.
      intros i; cbn [set_obj w_shared w_objs]; rewrite (used_upd w g o) by (auto; exact ED); apply HA.
    - destruct (GO g) as [(og & Eg)|Eg]; rewrite Eg in HS; [|discriminate]. injection HS as <- <-. apply (collect_alive w); [reflexivity|].
      intros i HU. cbn [set_obj w_objs] in HU. apply used_spec in HU. destruct HU as (j & q & Ej & Eq). pose proof (get_lt _ _ _ Eg) as HLg. unfold get in Ej. rewrite nth_error_upd in Ej.
      apply HA, used_spec. exists j, q. split; auto. unfold get. destruct (Nat.eqb_spec g j) as [->|]; [destruct (j <? length (w_objs w)); discriminate|exact Ej].
  Qed.
  Theorem C80_memory mats cs : Forall good mats -> legal_history (start mats) cs -> exists w outs, run (init mats) cs = Ok (w, outs) /\
    forall i, get (w_shared w) i <> None <-> exists g o, nth_error (w_objs w) g = Some (Some o) /\ o_shared o = i.
  Proof.
    intros HM HL. assert (Q : forall cs w a, rel w a -> alive w -> legal_history a cs -> exists w' outs, run w cs = Ok (w', outs) /\ alive w').
    { clear mats cs HM HL. induction cs as [|c cs IH]; intros w a HR HA HL; cbn [run]; [eauto|]. inversion HL as [|? ? ? H1 H2]; subst. destruct (step_ok w a c HR H1) as (w1 & r1 & a2 & E & X & R1).
      rewrite E. cbn [obind fst snd]. destruct (IH w1 a2 R1 (step_alive _ _ _ _ _ HR HA E) (H2 _ _ X)) as (w2 & outs & E2 & A2). rewrite E2. cbn [obind fst snd]. eauto. }
    destruct (Q cs (init mats) (start mats) (init_rel mats HM)) as (w & outs & E & HA); auto.
    { intros i. cbn. split; [|discriminate]. intros H. exfalso. apply H. destruct i; reflexivity. }
    exists w, outs. split; auto. intros i. rewrite (HA i), used_spec. split; intros (g & o & E1 & E2); exists g, o; split; auto; unfold get in *.
    - destruct (nth_error (w_objs w) g) as [[?|]|]; congruence.
    - rewrite E1. reflexivity.
  Qed.

  (** C80.  Smoothers and coarse solver that read the matrices when they are used (SOR, SSOR, Jacobi; the iterative coarse solver with such a smoother): after recalculateHierarchy
      the object is what an AMG constructed for the present matrix is, if that one chooses the same aggregates. *)
  Theorem C80_recalculated f A failed d failed' r :
    (forall B B', spre B = spre B') -> (forall B B', spost B = spost B') -> (forall B B', csolve B = csolve B') ->
    good (f_built f) -> f_last f = A -> (exists h, hierarchy_for (f_built f) A h /\ hierarchy_for A A h) ->
    (applied f A failed d failed' r <-> applied (mkfamily (f_mat f) A A) A failed d failed' r) /\
    (* namely the multigrid cycle of the Galerkin hierarchy of A *)
    forall h, hierarchy_for (f_built f) A h -> applied f A false d failed' r -> solves (csolve (snd h) (snd h)) (length (snd h))
        (coarse_rhs (csolve (snd h) (snd h)) damp preSteps postSteps gamma (length (snd h)) (coarsen_smoother (fun B => spre B B) (fun B => spost B B) (fst h)) d) = true ->
      r = Vec (cycle (csolve (snd h) (snd h)) damp preSteps postSteps gamma (length (snd h)) (coarsen_smoother (fun B => spre B B) (fun B => spost B B) (fst h)) d).
  Proof.
    intros L1 L2 L3 GB EA (h & H1 & H2). subst A. set (A := f_last f) in *.
    assert (WF : forall h A', hierarchy_for A' A h -> with_finest A h = h).
    { intros [ls C] A' (? & ? & _ & _ & N & _). unfold with_finest. cbn [fst snd] in *. destruct ls as [|[B b] ls]; cbn [next fst] in N; subst; reflexivity. }
    assert (LV : forall b n, length b = length n -> levels_of b n = coarsen_smoother (fun B => spre B B) (fun B => spost B B) n).
    { induction b as [|[B ?] b IH]; intros [|[C c] n] K; cbn [length] in K; try discriminate; cbn [levels_of coarsen_smoother map fst snd]; auto. f_equal; [|apply IH; lia].
      rewrite (L1 C B), (L2 C B). reflexivity. }
    assert (LN : forall A0 A1 A2 h1 h2, hierarchy_for A0 A1 h1 -> hierarchy_for A0 A2 h2 -> length (fst h1) = length (fst h2)).
    { intros A0 A1 A2 h1 h2 K1 K2. destruct (hfor_pats _ _ _ _ _ K1 K2) as [K _]. apply (f_equal (@length _)) in K. rewrite !map_length in K. exact K. }
    assert (AP : forall f' fd fd' r', f_last f' = A -> hierarchy_for (f_built f') A h -> good (f_built f') -> (applied f' A fd d fd' r' <->
      let L := coarsen_smoother (fun B => spre B B) (fun B => spost B B) (fst h) in let sv := csolve (snd h) (snd h) in let nc := length (snd h) in
      fd' = fd || negb (solves sv nc (coarse_rhs sv damp preSteps postSteps gamma nc L d)) /\ r' = if fd' && negb (length L =? 0) then Raised EMath else Vec (cycle sv damp preSteps postSteps gamma nc L d))).
    { intros f' fd fd' r' E HF GF. cbv zeta. split.
      - intros (hb & hr & K1 & K2 & K). rewrite E in K2. pose proof (hfor_unique _ _ _ _ K2 HF) as EH. subst hr. rewrite (WF h _ HF) in K. cbv zeta in K. rewrite (LV _ _ (LN _ _ _ _ _ K1 HF)), (L3 (snd hb) (snd h)) in K. exact K.
      - intros K. destruct (hfor_built _ GF) as (hb & _ & K1). exists hb, h. split; auto. split; [congruence|]. rewrite (WF h _ HF). cbv zeta. rewrite (LV _ _ (LN _ _ _ _ _ K1 HF)), (L3 (snd hb) (snd h)). exact K. }
    assert (GA : good A) by (apply (good_pat A (f_built f)); [eapply hfor_pat; eauto|exact GB]).
    split; [rewrite (AP f) by auto; rewrite (AP (mkfamily (f_mat f) A A)) by auto; tauto|].
    intros h' H' HA HS. pose proof (hfor_unique _ _ _ _ H' H1). subst h'. apply (AP f) in HA; auto. cbv zeta in HA. destruct HA as [-> ->]. rewrite HS. reflexivity.
  Qed.

  (** Deviation: a direct coarse solver is never told about new values.  With a single level no change of the matrix and no recalculateHierarchy has any effect. *)
  Theorem C80_direct_refuted f A failed d failed' r C0 : (forall B C C', csolve B C = csolve B C') -> good (f_built f) -> bld (f_built f) = Ok (Some (nil, C0)) -> length A = length (f_built f) ->
    applied f A failed d failed' r -> r = Vec (fst (fst (csolve (f_built f) (f_built f) (zerov (length (f_built f))) d))).
  Proof.
    intros HD HG HB HL (hb & hr & (l1 & C1 & E1 & _ & N1 & S1 & _) & (l2 & C2 & E2 & _ & N2 & S2 & _) & _ & H). rewrite HB in E1, E2. injection E1 as <- <-. injection E2 as <- <-.
    destruct hb as [[|] Cb], hr as [[|] Cr]; cbn [fst snd map next] in *; try discriminate. subst Cb Cr. unfold with_finest in H. cbn [fst snd levels_of length Nat.eqb negb] in H. rewrite andb_false_r in H. rewrite H.
    cbn [Amg.cycle]. rewrite (HD _ A (f_built f)), HL. reflexivity.
  Qed.
End Life.

(** ** The objects with MatrixHierarchy::build *)
Theorem C80_amg {R : ring} (inv : R -> option R) (eq0 : R -> bool) damp preSteps postSteps gamma spre spost csolve fill1 fill2 fill3
    depends influences isolated excludedBorder mn mx maxDist maxConn skip D quot dm1 deq dgt maxLevel target rate :
  let bld := build depends influences isolated excludedBorder mn mx maxDist maxConn skip D quot dm1 deq dgt maxLevel target rate in
  (forall a b, inv a = Some b -> rmul a b = r1 /\ rmul b a = r1) -> (forall a, eq0 a = true <-> a = r0) ->
  (forall k, length (fill1 k) = k) -> (forall k, length (fill2 k) = k) -> (forall k, length (fill3 k) = k) ->
  (forall B A x d : list _, length B = length A -> length x = length A -> length d = length A -> length (spre B A x d) = length A) ->
  (forall B A x d : list _, length B = length A -> length x = length A -> length d = length A -> length (spost B A x d) = length A) ->
  (forall B C u b : list _, length B = length C -> length u = length C -> length b = length C -> length (fst (fst (csolve B C u b))) = length C /\ length (snd (fst (csolve B C u b))) = length C) ->
  mn <= mx -> 1 <= mx ->
  forall mats cs, Forall (fun A => mat_wf (length A) (length A) A /\ sym_pat A) mats ->
    legal_history inv damp preSteps postSteps gamma spre spost csolve bld (start mats) cs ->
    exists w outs a, run inv eq0 damp preSteps postSteps gamma spre spost csolve fill1 fill2 fill3 bld (init mats) cs = Ok (w, outs) /\
      expects inv damp preSteps postSteps gamma spre spost csolve bld (start mats) cs a outs.
Proof.
  intros bld I1 I2 F1 F2 F3 P1 P2 P3 M1 M2 mats cs HM HL. apply C80_history; auto.
  intros A [HW HS]. destruct (C59_build depends influences isolated excludedBorder mn mx maxDist maxConn skip D quot dm1 deq dgt maxLevel target rate M1 M2 A HW HS) as (ls & C & E & N & _ & H & _). eauto 10.
Qed.

(** ** Deviations and non-vacuity *)
Definition exinv (a : Z) : option Z := if Z.eqb a 1 then Some 1%Z else if Z.eqb a (-1) then Some (-1)%Z else None.
Definition exA (q : Z) : smat Zring := [[(0, (2 * q)%Z); (1, (- q)%Z)]; [(0, (- q)%Z); (1, (2 * q)%Z)]].
(** Everything is strongly connected: one aggregate if two levels are allowed *)
Definition exbld (maxLevel : nat) : smat Zring -> outcome (option (list (@mlevel Zring) * smat Zring)) :=
  build (R := Zring) (fun _ _ => yes2) (fun _ _ => yes2) (fun _ _ => no1) (fun _ _ => no1) 2 3 2 15 false Q exquot (-1)%Q Qeq_bool exgt maxLevel 1 (6#5).
(** Division by the first entry of the matrix the solver was constructed for (direct) or of the one it reads (iterative): an exact solver for one unknown *)
Definition exdirect (B C : smat Zring) (u b : vec Zring) : vec Zring * vec Zring * bool := (map (fun x : Z => (x / @den Zring B 0 0)%Z) b, b, true).
Definition exiter (B C : smat Zring) (u b : vec Zring) : vec Zring * vec Zring * bool := (map (fun x : Z => (x / @den Zring C 0 0)%Z) b, b, true).
Definition exfill (n : nat) : vec Zring := repeat 7%Z n.
Definition exsm (B A : smat Zring) (x d : vec Zring) : vec Zring := d.
Definition exrun (steps : nat) (solver : smat Zring -> smat Zring -> vec Zring -> vec Zring -> vec Zring * vec Zring * bool) (maxLevel : nat) (mats : list (smat Zring)) (cs : list (@op Zring)) : outcome (list (@out Zring)) :=
  obind (run (R := Zring) exinv (Z.eqb 0) 1%Z steps steps 1 exsm exsm solver exfill exfill exfill (exbld maxLevel) (init mats) cs) (fun p => Ok (snd p)).
Definition exz : vec Zring := [0; 0]%Z.
Definition ex11 : vec Zring := [1; 1]%Z.
Definition ex22 : vec Zring := [2; 2]%Z.
Definition ex24 : vec Zring := [2; 4]%Z.
(** Deviation: after the values of the matrix have been doubled and recalculateHierarchy, AMG with a direct coarse solver still applies the inverse of the old coarse matrix, where
    an AMG constructed now applies that of the new one (2 and 1).  With an iterative coarse solver both give 1. *)
Theorem C80_stale_coarse_solver_refuted :
  exrun 0 exdirect 5 [exA 1] [Construct 0; Change 0 (exA 2); Recalculate 0; Construct 0;
      Pre 0 exz ex22; Apply 0 exz ex22; Pre 1 exz ex22; Apply 1 exz ex22]
    = Ok [Done; Done; Done; Done; Pair exz ex22; Vec ex22; Pair exz ex22; Vec ex11] /\
  exrun 0 exiter 5 [exA 1] [Construct 0; Change 0 (exA 2); Recalculate 0; Construct 0;
      Pre 0 exz ex22; Apply 0 exz ex22; Pre 1 exz ex22; Apply 1 exz ex22]
    = Ok [Done; Done; Done; Done; Pair exz ex22; Vec ex11; Pair exz ex22; Vec ex11].
Proof. split; match goal with |- _ = ?r => vm_cast_no_check (eq_refl r) end. Qed.
(** Deviation: without recalculateHierarchy the levels do not fit: the finest matrix is the new one, the coarse one the old one; the result (here with one smoothing step) is neither
    that of the AMG of the old matrix nor that of the new one. *)
Theorem C80_mixed_refuted :
  exrun 1 exiter 5 [exA 1; exA 2] [Construct 0; Pre 0 exz ex24; Apply 0 exz ex24; Post 0; Change 0 (exA 2); Pre 0 exz ex24; Apply 0 exz ex24;
      Construct 1; Pre 1 exz ex24; Apply 1 exz ex24]
    = Ok [Done; Pair exz ex24; Vec ([4; 2]%Z : vec Zring); Done; Done; Pair exz ex24; Vec ([7; (-1)]%Z : vec Zring); Done; Pair exz ex24; Vec ([6; (-2)]%Z : vec Zring)].
Proof. match goal with |- _ = ?r => vm_cast_no_check (eq_refl r) end. Qed.
(** The protocol: apply after a pre on another object, a copy made between pre and post, after post *)
Example C80_nonvacuous_protocol :
  exrun 1 exdirect 5 [exA 1] [Construct 0; Apply 0 exz ex24] = UB /\ exrun 1 exdirect 5 [exA 1] [Construct 0; Pre 0 exz ex24; Copy 0; Apply 1 exz ex24] = UB /\
  exrun 1 exdirect 5 [exA 1] [Construct 0; Pre 0 exz ex24; Post 0; Apply 0 exz ex24] = UB /\ exrun 1 exdirect 5 [exA 1] [Construct 0; Pre 0 exz ex24; Post 0; Post 0] = UB.
Proof. vm_compute. auto. Qed.
(** A copy outlives the object it was made from, and sees the recalculation *)
Definition excs : list (@op Zring) :=
  [Construct 0; Pre 0 exz ex24; Copy 0; Construct 0; Assign 2 0; Destroy 0; Change 0 (exA 2); Recalculate 1; Pre 1 exz ex24; Apply 1 exz ex24; Apply 2 exz ex24; Post 2; Destroy 2; Post 1; Destroy 1].
Example C80_nonvacuous_run : exrun 1 exiter 5 [exA 1] excs =
  Ok [Done; Pair exz ex24; Done; Done; Done; Done; Done; Done; Pair exz ex24; Vec ([6; (-2)]%Z : vec Zring); Vec ([6; (-2)]%Z : vec Zring); Done; Done; Done; Done].
Proof. match goal with |- _ = ?r => vm_cast_no_check (eq_refl r) end. Qed.
Lemma exA_pat p q : pat (exA p) = pat (exA q). Proof. reflexivity. Qed.
Lemma exA_coupled q k : q <> 0%Z -> k < 2 -> ~ @decoupled Zring (exA q) k.
Proof.
  intros Hq Hk [_ H]. destruct k as [|[|]]; [specialize (H 1 ltac:(lia))|specialize (H 0 ltac:(lia))|lia]; destruct q as [|q|q]; try congruence; vm_compute in H; discriminate.
Qed.
Ltac obj := do 3 eexists; split; [split; [reflexivity|split; reflexivity]|].
Ltac obj0 := do 3 eexists; split; [reflexivity|split; reflexivity].
Ltac objeq H := let E1 := fresh in let E2 := fresh in destruct H as (E1 & E2 & ->); cbn in E1, E2; injection E1 as <-; injection E2 as <-.
Example C80_nonvacuous_legal : Forall good [exA 1] /\ legal_history (R := Zring) exinv 1%Z 1 1 1 exsm exsm exiter (exbld 5) (start [exA 1]) excs.
Proof.
  split.
  - constructor; [|constructor]. split; [split; [reflexivity|]; repeat (constructor; [split; repeat constructor|]); constructor|].
    intros i j Hi H. cbn in Hi. destruct i as [|[|]]; [| |lia]; cbn in H; destruct H as [<-|[<-|[]]]; cbn; auto.
  - unfold excs.
    apply legal_cons; [cbn; lia|]. clear; intros a r [-> _]. cbn -[exA].
    apply legal_cons; [obj; split; reflexivity|]. clear; intros a r (o & f & A & HO & [(x1 & _ & _ & _ & -> & _)|((k & Hk & D & _) & _)]); [|exfalso; objeq HO; apply (exA_coupled 1 k); [lia|exact Hk|exact D]]. objeq HO. cbn -[exA].
    apply legal_cons; [obj0|]. clear; intros a r (o & f & A & HO & -> & _). objeq HO. cbn -[exA].
    apply legal_cons; [cbn; lia|]. clear; intros a r [-> _]. cbn -[exA].
    apply legal_cons; [split; obj0|]. clear; intros a r (o & f & A & HO & -> & _). objeq HO. cbn -[exA].
    apply legal_cons; [obj0|]. clear; intros a r [-> _]. cbn -[exA].
    apply legal_cons; [eexists; split; [reflexivity|apply exA_pat]|]. clear; intros a r [-> _]. cbn -[exA].
    apply legal_cons; [obj0|]. clear; intros a r (o & f & A & HO & -> & _). objeq HO. cbn -[exA].
    apply legal_cons; [obj; split; reflexivity|]. clear; intros a r (o & f & A & HO & [(x2 & _ & _ & _ & -> & _)|((k & Hk & D & _) & _)]); [|exfalso; objeq HO; apply (exA_coupled 2 k); [lia|exact Hk|exact D]]. objeq HO. cbn -[exA].
    apply legal_cons; [obj; repeat split|]. clear; intros a r (o & f & A & fd & HO & _ & ->). objeq HO. cbn -[exA].
    apply legal_cons; [obj; repeat split|]. clear; intros a r (o & f & A & fd' & HO & _ & ->). objeq HO. cbn -[exA].
    apply legal_cons; [obj; reflexivity|]. clear; intros a r (o & f & A & HO & -> & _). objeq HO. cbn -[exA].
    apply legal_cons; [obj0|]. clear; intros a r [-> _]. cbn -[exA].
    apply legal_cons; [obj; reflexivity|]. clear; intros a r (o & f & A & HO & -> & _). objeq HO. cbn -[exA].
    apply legal_cons; [obj0|]. clear; intros a r _. constructor.
Qed.
(** The hypotheses of C80_recalculated: two different matrices with the same aggregates *)
Example C80_nonvacuous_recalculated : exists h, hierarchy_for (R := Zring) (exbld 5) (exA 1) (exA 2) h /\ hierarchy_for (R := Zring) (exbld 5) (exA 2) (exA 2) h /\ length (fst h) = 1.
Proof.
  assert (G : good (exA 2)).
  { split; [split; [reflexivity|]; repeat (constructor; [split; repeat constructor|]); constructor|]. intros i j Hi H. cbn in Hi. destruct i as [|[|]]; [| |lia]; cbn in H; destruct H as [<-|[<-|[]]]; cbn; auto. }
  destruct (C59_build (R := Zring) (fun _ _ => yes2) (fun _ _ => yes2) (fun _ _ => no1) (fun _ _ => no1) 2 3 2 15 false Q exquot (-1)%Q Qeq_bool exgt 5 1 (6#5) ltac:(lia) ltac:(lia) (exA 2) (proj1 G) (proj2 G)) as (ls & C & E & N & _ & H & _).
  destruct (exbld 5 (exA 1)) as [[[ls1 C1]|]| |] eqn:E1; [|vm_compute in E1; discriminate..]. exists (ls, C). cbn [fst snd].
  assert (S : map snd ls = map snd ls1 /\ map pat (map fst ls ++ [C]) = map pat (map fst ls1 ++ [C1]) /\ length ls = 1).
  { vm_compute in E, E1. injection E as <- <-. injection E1 as <- <-. cbn [map fst snd app]. split; [reflexivity|]. split; reflexivity. }
  destruct S as (S1 & S2 & S3). split; [exists ls1, C1; auto 10|]. split; [exists ls, C; auto 10|exact S3].
Qed.
