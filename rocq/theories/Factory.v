(** * Solver factory and registry (C37): dune/istl/common/registry.hh, solverregistry.hh, solverfactory.hh *)
From Coq Require Import String Arith List Lia Bool.
From Verif Require Import Outcome Solvers.
Import ListNotations.
Open Scope string_scope.
Open Scope list_scope.

Section Factory.
  Context {Op P Rest S : Type}.
  Variable parallel : bool.          (* OperatorTraits<Operator>::isParallel: the operator type has a communication_type *)
  Variable opcat : Op -> category.   (* op->category() *)
  Variable pcat : P -> category.     (* prec->category() *)
  (** ParameterTrees: the type key (get<std::string>("type") throws RangeError if missing) and the rest *)
  Record pcfg := mkp { p_type : option string; p_rest : Rest }.
  Record cfg := mkc { c_type : option string; c_keys : bool (* reduction, maxit and verbose are present *); c_prec : pcfg (* sub("preconditioner"), empty if missing *) }.
  Definition pcreator := Op -> pcfg -> outcome P.
  (** a preconditioner as the solver sees it: as it is, or in a BlockPreconditioner or NonoverlappingBlockPreconditioner *)
  Inductive wprec := Plain (p : P) | BlockPrec (p : P) | NonovBlockPrec (p : P).
  (** an iterative solver of some class with its operator and preconditioner, or whatever another creator makes *)
  Inductive solver := Iter (kind : nat) (op : Op) (p : wprec) | Made (s : S).
  (** creators: defaultIterativeSolverCreator<Solver> (solverregistry.hh:97-114), or any other (direct solvers) that does not look up a preconditioner *)
  Inductive screator := Iterative (kind : nat) | Other (f : Op -> cfg -> outcome solver).

  (** ** Model *)
  (** the two singletons; ParameterizedObjectFactory (dune-common): define overwrites, create throws for an unknown key *)
  Record fworld := mkf { f_p : list (string * pcreator); f_s : list (string * screator) }.
  Fixpoint flook {X} (n : string) (l : list (string * X)) : option X := match l with nil => None | (k, x) :: t => if k =? n then Some x else flook n t end.
  Definition fdefine {X} (n : string) (x : X) (l : list (string * X)) : list (string * X) := (n, x) :: l.
  (** addRegistryToFactory, registry.hh:57-74: defines the registered creators in the order of registration *)
  Definition faddreg {X} (reg : list (string * X)) (l : list (string * X)) : list (string * X) := fold_left (fun l d => fdefine (fst d) (snd d) l) reg l.
  (** category of the wrappers: schwarz.hh:361 returns overlapping, novlpschwarz.hh:352 nonoverlapping *)
  Definition wcat (w : wprec) : category := match w with Plain p => pcat p | BlockPrec _ => Overlapping | NonovBlockPrec _ => Nonoverlapping end.
  (** getPreconditionerFromFactory, solverfactory.hh:173-193 *)
  Definition get_prec (w : fworld) (op : Op) (c : pcfg) : outcome wprec :=
    match p_type c with
    | None => Throw ERange
    | Some t => match flook t (f_p w) with
        | None => Throw ENotFound
        | Some cr => obind (cr op c) (fun p =>
            Ok (if parallel then
                  if cat_eqb (opcat op) Overlapping && cat_eqb (pcat p) Sequential then BlockPrec p
                  else if cat_eqb (opcat op) Nonoverlapping && cat_eqb (pcat p) Sequential then NonovBlockPrec p else Plain p
                else Plain p))
        end
    end.
  (** getScalarProduct, solverfactory.hh:79-86, and makeScalarProduct, scalarproducts.hh:223-235: its category *)
  Definition sp_cat (op : Op) : category := if parallel then opcat op else Sequential.
  Definition create_solver (w : fworld) (cr : screator) (op : Op) (c : cfg) : outcome solver :=
    match cr with
    | Other f => f op c
    | Iterative kind => obind (get_prec w op (c_prec c)) (fun p => if c_keys c then obind (construct3 (opcat op) (sp_cat op) (wcat p)) (fun _ => Ok (Iter kind op p)) else Throw ERange)
    end.
  Definition runtime_name := "__passed at runtime__".
  (** getSolverFromFactory, solverfactory.hh:149-166 *)
  Definition get_solver (w : fworld) (op : Op) (c : cfg) (prec : option P) : fworld * outcome solver :=
    let create w c' := match c_type c with None => Throw ERange | Some t => match flook t (f_s w) with None => Throw ENotFound | Some cr => create_solver w cr op c' end end in
    match prec with
    | Some p => let w' := mkf (fdefine runtime_name (fun _ _ => Ok p) (f_p w)) (f_s w) in (w', create w' (mkc (c_type c) (c_keys c) (mkp (Some runtime_name) (p_rest (c_prec c)))))
    | None => (w, create w c)
    end.
  (** what a program does; FInit: initSolverFactories() in a translation unit with these registrations (solverfactory.hh:119-126) *)
  Inductive fcmd := FInit (ps : list (string * pcreator)) (ss : list (string * screator)) | FDefineP (n : string) (cr : pcreator) | FDefineS (n : string) (cr : screator) | FGet (op : Op) (c : cfg) (prec : option P).
  Definition fstep (w : fworld) (c : fcmd) : fworld :=
    match c with
    | FInit ps ss => mkf (faddreg ps (f_p w)) (faddreg ss (f_s w))
    | FDefineP n cr => mkf (fdefine n cr (f_p w)) (f_s w)
    | FDefineS n cr => mkf (f_p w) (fdefine n cr (f_s w))
    | FGet op c prec => fst (get_solver w op c prec)
    end.
  Definition frun (h : list fcmd) : fworld := fold_left fstep h (mkf nil nil).
  (** registryGet, registry.hh:39-52: the first registration of that name that yields an object *)
  Fixpoint registry_get {X Y} (n : string) (args : Y) (reg : list (string * (Y -> option X))) (result : option X) : option X :=
    match reg with
    | nil => result
    | (k, cr) :: t => registry_get n args t (match result with None => if k =? n then cr args else None | Some r => Some r end)
    end.

  (** ** Specification: the definitions of a history in chronological order, and the last one for a name *)
  Definition pdefs_of (c : fcmd) : list (string * pcreator) := match c with FInit ps _ => ps | FDefineP n cr => [(n, cr)] | _ => nil end.
  Definition sdefs_of (c : fcmd) : list (string * screator) := match c with FInit _ ss => ss | FDefineS n cr => [(n, cr)] | _ => nil end.
  Definition pdefs (h : list fcmd) := flat_map pdefs_of h.
  Definition sdefs (h : list fcmd) := flat_map sdefs_of h.
  Definition last_def {X} (n : string) (defs : list (string * X)) : option X := option_map snd (find (fun d => fst d =? n) (rev defs)).
  (** the preconditioner a parallel solver gets from a sequential one *)
  Definition adapted (op : Op) (p : P) (w : wprec) : Prop :=
    w = if parallel then match opcat op, pcat p with Overlapping, Sequential => BlockPrec p | Nonoverlapping, Sequential => NonovBlockPrec p | _, _ => Plain p end else Plain p.
  (** which categories fit: operator and preconditioner have the same category, or a parallel operator gets a sequential preconditioner; a type without communication must be sequential *)
  Definition fits (op : Op) (p : P) : Prop := if parallel then pcat p = opcat op \/ pcat p = Sequential else opcat op = Sequential /\ pcat p = Sequential.

  (** ** Proofs *)
  Lemma flook_app {X} n (l l' : list (string * X)) : flook n (l ++ l') = match flook n l with Some x => Some x | None => flook n l' end.
  Proof. induction l as [|[k x] t IH]; cbn; auto. destruct (k =? n); auto. Qed.
  Lemma flook_find {X} n (l : list (string * X)) : flook n l = option_map snd (find (fun d => fst d =? n) l).
  Proof. induction l as [|[k x] t IH]; cbn; auto. destruct (k =? n); auto. Qed.
  Lemma faddreg_rev {X} (reg : list (string * X)) : forall l, faddreg reg l = rev reg ++ l.
  Proof. unfold faddreg. induction reg as [|[n x] t IH]; intros l; cbn; auto. rewrite IH. unfold fdefine. cbn. now rewrite <- app_assoc. Qed.
  Lemma frun_s h : forall w, f_s (fold_left fstep h w) = rev (sdefs h) ++ f_s w.
  Proof.
    induction h as [|c h IH]; intros w; cbn [fold_left]; auto. rewrite IH. cbn [sdefs flat_map]. rewrite rev_app_distr, <- app_assoc. f_equal.
    destruct c; cbn [fstep sdefs_of f_s get_solver]; auto; [apply faddreg_rev|]. destruct prec; reflexivity.
  Qed.
  (** the definitions of preconditioners, apart from the reserved name *)
  Lemma frun_p n h : n <> runtime_name -> forall w, flook n (f_p (fold_left fstep h w)) = match last_def n (pdefs h) with Some x => Some x | None => flook n (f_p w) end.
  Proof.
    intros NN. induction h as [|c h IH]; intros w; cbn [fold_left]; auto. rewrite IH. unfold last_def. cbn [pdefs flat_map]. rewrite rev_app_distr. rewrite <- !flook_find, flook_app.
    change (flat_map pdefs_of h) with (pdefs h). destruct (flook n (rev (pdefs h))) as [x|]; auto.
    destruct c; cbn [fstep pdefs_of f_p get_solver]; auto.
    - rewrite faddreg_rev, flook_app. reflexivity.
    - cbn. destruct (n0 =? n); auto.
    - destruct prec; cbn [get_solver fst f_p]; auto. unfold fdefine. cbn [flook rev]. destruct (String.eqb_spec runtime_name n); auto. congruence.
  Qed.
  Lemma frun_s_last n h : flook n (f_s (frun h)) = last_def n (sdefs h).
  Proof. unfold frun. rewrite frun_s. cbn [f_s]. rewrite app_nil_r, flook_find. reflexivity. Qed.
  Lemma get_prec_spec w op c t cr : p_type c = Some t -> flook t (f_p w) = Some cr -> get_prec w op c = obind (cr op c) (fun p => Ok (if parallel then match opcat op, pcat p with Overlapping, Sequential => BlockPrec p | Nonoverlapping, Sequential => NonovBlockPrec p | _, _ => Plain p end else Plain p)).
  Proof.
    intros HT HL. unfold get_prec. rewrite HT, HL. destruct (cr op c) as [p| |]; cbn [obind]; auto. destruct parallel; auto. destruct (opcat op), (pcat p); auto.
  Qed.
  Lemma construct_fits op p w : adapted op p w -> (fits op p -> construct3 (opcat op) (sp_cat op) (wcat w) = Ok (opcat op)) /\ (~ fits op p -> construct3 (opcat op) (sp_cat op) (wcat w) = Throw ECategory).
  Proof.
    unfold adapted, fits, sp_cat. intros ->. destruct parallel; destruct (opcat op), (pcat p) eqn:EP; cbn [wcat]; rewrite ?EP; cbn; intuition congruence.
  Qed.

  (** C37: after any history, a name gives the object made by the creator last defined under it ... *)
  Theorem C37_lookup h op c : let r := snd (get_solver (frun h) op c None) in
    match c_type c with
    | None => r = Throw ERange
    | Some t => match last_def t (sdefs h) with
        | None => r = Throw ENotFound
        | Some (Other f) => r = f op c
        | Some (Iterative kind) => forall pt, p_type (c_prec c) = Some pt -> pt <> runtime_name ->
            match last_def pt (pdefs h) with
            | None => r = Throw ENotFound
            | Some cr => match cr op (c_prec c) with
                | Ok p => (fits op p /\ c_keys c = true -> exists w, adapted op p w /\ r = Ok (Iter kind op w)) /\ (~ fits op p /\ c_keys c = true -> r = Throw ECategory) /\ (c_keys c = false -> r = Throw ERange)
                | Throw e => r = Throw e
                | UB => r = UB
                end
            end
        end
    end.
  Proof.
    cbn [get_solver snd]. destruct (c_type c) as [t|]; auto. rewrite frun_s_last. destruct (last_def t (sdefs h)) as [[kind|f]|]; auto. intros pt PT NR.
    assert (FL : flook pt (f_p (frun h)) = last_def pt (pdefs h)). { unfold frun. rewrite frun_p by auto. cbn. destruct (last_def pt (pdefs h)); auto. }
    cbn [create_solver]. destruct (last_def pt (pdefs h)) as [cr|] eqn:EL.
    - rewrite (get_prec_spec _ _ _ _ _ PT FL). destruct (cr op (c_prec c)) as [p| |]; cbn [obind]; auto.
      match goal with |- context [wcat ?w] => assert (AD : adapted op p w) by reflexivity; destruct (construct_fits op p w AD) as [F1 F2] end.
      split; [intros [HF ->]; rewrite F1 by auto; cbn [obind]; eexists; split; [exact AD|reflexivity]|]. split; [intros [HF ->]; rewrite F2 by auto; reflexivity|intros ->; reflexivity].
    - unfold get_prec. rewrite PT, FL. reflexivity.
  Qed.
  (** ... and a preconditioner passed at run time is the one an iterative solver uses, whatever is configured or defined *)
  Theorem C37_passed_preconditioner h op c p t kind : c_type c = Some t -> last_def t (sdefs h) = Some (Iterative kind) -> c_keys c = true ->
    let r := snd (get_solver (frun h) op c (Some p)) in
    (fits op p -> exists w, adapted op p w /\ r = Ok (Iter kind op w)) /\ (~ fits op p -> r = Throw ECategory).
  Proof.
    intros HT HL HK. cbn [get_solver snd f_s]. rewrite HT, frun_s_last, HL. cbn [create_solver c_prec].
    set (w' := mkf (fdefine runtime_name (fun _ _ => Ok p) (f_p (frun h))) (f_s (frun h))). set (c' := mkp (Some runtime_name) (p_rest (c_prec c))).
    rewrite (get_prec_spec w' op c' runtime_name (fun _ _ => Ok p)); [|reflexivity|reflexivity]. cbn [obind c_keys]. rewrite HK.
    match goal with |- context [wcat ?w] => assert (AD : adapted op p w) by reflexivity; destruct (construct_fits op p w AD) as [F1 F2] end.
    split; [intros HF; rewrite F1 by auto; cbn [obind]; eexists; split; [exact AD|reflexivity]|intros HF; rewrite F2 by auto; reflexivity].
  Qed.
  (** calls of the factory do not influence later ones that do not use the reserved name *)
  Theorem C37_calls_independent h op c : p_type (c_prec c) <> Some runtime_name ->
    snd (get_solver (frun h) op c None) = snd (get_solver (frun (filter (fun x => match x with FGet _ _ _ => false | _ => true end) h)) op c None).
  Proof.
    intros NR. set (h' := filter _ h).
    assert (ES : sdefs h' = sdefs h). { unfold h', sdefs. clear. induction h as [|x t IH]; cbn; auto. destruct x; cbn [flat_map sdefs_of]; rewrite ?IH; auto. }
    assert (EP : pdefs h' = pdefs h). { unfold h', pdefs. clear. induction h as [|x t IH]; cbn; auto. destruct x; cbn [flat_map pdefs_of]; rewrite ?IH; auto. }
    cbn [get_solver snd]. destruct (c_type c) as [t|]; auto. rewrite !frun_s_last, ES. destruct (last_def t (sdefs h)) as [[kind|f]|]; auto. cbn [create_solver]. replace (get_prec (frun h') op (c_prec c)) with (get_prec (frun h) op (c_prec c)); auto.
    unfold get_prec. destruct (p_type (c_prec c)) as [pt|]; auto. unfold frun. rewrite !frun_p, EP by congruence. reflexivity.
  Qed.
  (** Deviation: the passed preconditioner stays in the factory under a reserved name, so that it stays alive and a configuration can select it later *)
  Theorem C37_passed_preconditioner_stays_refuted h op c p t kind : c_type c = Some t -> last_def t (sdefs h) = Some (Iterative kind) -> c_keys c = true -> p_type (c_prec c) = Some runtime_name -> fits op p ->
    forall c0, exists w, adapted op p w /\ snd (get_solver (fst (get_solver (frun h) op c0 (Some p))) op c None) = Ok (Iter kind op w).
  Proof.
    intros HT HL HK HP HF c0. cbn [get_solver fst snd f_s]. rewrite HT, frun_s_last, HL. cbn [create_solver].
    rewrite (get_prec_spec _ op (c_prec c) runtime_name (fun _ _ => Ok p)); [|auto|reflexivity]. cbn [obind]. rewrite HK.
    match goal with |- context [wcat ?w] => assert (AD : adapted op p w) by reflexivity; destruct (construct_fits op p w AD) as [F1 F2] end.
    rewrite F1 by auto. cbn [obind]. eexists. split; [exact AD|reflexivity].
  Qed.
  (** registryGet uses the first registration of a name that yields an object ... *)
  Theorem C37_registry_get {X Y} n (args : Y) (reg : list (string * (Y -> option X))) :
    registry_get n args reg None = match find (fun d => (fst d =? n) && match snd d args with Some _ => true | None => false end) reg with Some d => snd d args | None => None end.
  Proof.
    assert (G : forall (reg : list (string * (Y -> option X))) r, registry_get n args reg (Some r) = Some r) by (induction reg0 as [|[k cr] t IH]; intros r; cbn; auto).
    induction reg as [|[k cr] t IH]; cbn [registry_get find fst snd]; auto. destruct (k =? n); cbn [andb]; [|exact IH]. destruct (cr args) as [x|] eqn:E; [rewrite G; cbn; auto|]. exact IH.
  Qed.
End Factory.
(** ... whereas the factories use the last: with two registrations of one name the two look-ups differ *)
Theorem C37_duplicate_names_refuted : forall (A B : nat), registry_get (X := nat) (Y := unit) "cg" tt [("cg", fun _ => Some A); ("cg", fun _ => Some B)] None = Some A /\ flook "cg" (faddreg [("cg", A); ("cg", B)] nil) = Some B.
Proof. split; reflexivity. Qed.
(** a parallel operator of category overlapping, a sequential and an overlapping preconditioner *)
Example C37_nonvacuous :
  let opcat (o : nat) := Overlapping in let pcat (p : nat) := if Nat.eqb p 0 then Sequential else Overlapping in
  let h := [FInit (Op := nat) (P := nat) (Rest := unit) (S := nat) [("ssor", fun _ _ => Ok 0%nat); ("amg", fun _ _ => Ok 1%nat); ("ssor", fun _ _ => Ok 2%nat)] [("cg", Iterative 7)]; FGet 3%nat (mkc (Some "cg") true (mkp (Some "ssor") tt)) (Some 5%nat); FDefineP "ssor" (fun _ _ => Ok 0%nat)] in
  let c := mkc (Some "cg") true (mkp (Some "ssor") tt) in
  last_def "cg" (sdefs h) = Some (Iterative 7) /\ fits true opcat pcat 3%nat 0%nat /\
  snd (get_solver true opcat pcat (frun true opcat pcat h) 3%nat c None) = Ok (Iter 7 3%nat (BlockPrec 0%nat)) /\
  snd (get_solver true opcat pcat (frun true opcat pcat h) 3%nat c (Some 9%nat)) = Ok (Iter 7 3%nat (Plain 9%nat)) /\
  snd (get_solver true opcat pcat (frun true opcat pcat h) 3%nat (mkc (Some "cgg") true (mkp None tt)) None) = Throw ENotFound.
Proof. cbn. repeat split; auto. Qed.
Print Assumptions C37_lookup.
Print Assumptions C37_passed_preconditioner.
Print Assumptions C37_calls_independent.
