(** * The container of the levels of an AMG: Amg::Hierarchy (dune/istl/paamg/hierarchy.hh), C60 *)
From Coq Require Import Arith List Lia Bool.
From Verif Require Import Outcome.
Import ListNotations.
Open Scope nat_scope.
Open Scope list_scope.

Section Hierarchy.
  Variable T : Type.      (* MemberType; its copy constructor copies the value *)

  (** ** Calls and observations *)
  (** Hierarchies, iterators and shared_ptr<MemberType> of the user are numbered in the order in which they are created. *)
  Inductive op :=
  | MakeValue (v : T)               (* std::make_shared<T>(v) by the user *)
  | ReadValue (p : nat) | WriteValue (p : nat) (v : T)
  | New (p : nat)                   (* Hierarchy(shared_ptr) *)
  | NewEmpty | Copy (h : nat) | Destroy (h : nat)
  | AddCoarser (h : nat) (v : T)    (* ConstructionTraits::construct(args) yields v *)
  | AddRedistributed (h : nat) (v : T)
  | Levels (h : nat) | Finest (h : nat) | Coarsest (h : nat)
  | CopyIt (i : nat) | DropIt (i : nat) | Increment (i : nat) | Decrement (i : nat) | Equal (i j : nat) | IsNull (i : nat)
  | Read (i : nat) | Write (i : nat) (v : T)
  | IsRedistributed (i : nat) | ReadRedistributed (i : nat) | WriteRedistributed (i : nat) (v : T)
  | SetRedistributed (i p : nat) | DeleteRedistributed (i : nat).
  Inductive obs := ODone | OHandle (n : nat) | OValue (v : T) | OBool (b : bool) | ONat (n : nat).

  (** ** The model *)
  (** Hierarchy::Element, hierarchy.hh:52-68.  coarser_ is a weak_ptr, finer_ a shared_ptr; element_ and redistributed_ point to values. *)
  Record elem := mkE { coarser : option nat; finer : option nat; el : nat; red : option nat }.
  (** data members, hierarchy.hh:252-268 (originalFinest_ only shares the ownership of the first value) *)
  Record hier := mkH { finest : option nat; coarsest : option nat; levels : nat }.
  (** [heap]: all elements ever allocated (an element that no shared_ptr reaches has been destroyed); [vals]: all values ever allocated (never
      accessed except through a shared_ptr that keeps them alive); [hs], [its]: hierarchies and iterators, None = destroyed. *)
  Record state := mkSt { heap : list elem; vals : list T; hs : list (option hier); its : list (option (option nat)) }.
  (** x is kept alive by the shared_ptr to r: r, or what it owns through finer_ *)
  Fixpoint owns (fuel : nat) (hp : list elem) (r x : nat) : bool :=
    match fuel with
    | 0 => false
    | S f => (r =? x) || match nth_error hp r with Some e => match finer e with Some r' => owns f hp r' x | None => false end | None => false end
    end.
  Definition ptr_list (p : option nat) : list nat := match p with Some x => [x] | None => [] end.
  Definition roots (st : state) : list nat :=
    flat_map (fun oh => match oh with Some h => ptr_list (finest h) ++ ptr_list (coarsest h) | None => [] end) (hs st) ++
    flat_map (fun oi => match oi with Some p => ptr_list p | None => [] end) (its st).
  Definition alive (st : state) (x : nat) : bool := existsb (fun r => owns (length (heap st)) (heap st) r x) (roots st).
  (** weak_ptr::lock *)
  Definition lock (st : state) (p : option nat) : option nat :=
    match p with Some x => if alive st x then Some x else None | None => None end.
  Definition set_nth {A} (l : list A) (k : nat) (a : A) : list A := firstn k l ++ match skipn k l with _ :: t => a :: t | [] => [] end.
  Definition with_heap (st : state) hp := mkSt hp (vals st) (hs st) (its st).
  Definition with_vals (st : state) vs := mkSt (heap st) vs (hs st) (its st).
  Definition with_hs (st : state) h := mkSt (heap st) (vals st) h (its st).
  Definition with_its (st : state) i := mkSt (heap st) (vals st) (hs st) i.
  (** the copy constructor's loop, hierarchy.hh:299-325: the new elements in the order of their allocation, [base] is the number of the
      next one; each one is completed before the next is (coarser_ is set when the next is allocated). *)
  Fixpoint copy_loop (fuel : nat) (st : state) (base : nat) (prev : option nat) (x : nat) (vs : list T) : outcome (list elem * list T) :=
    match fuel with
    | 0 => UB
    | S f =>
      match nth_error (heap st) x with
      | None => UB
      | Some e =>
        match nth_error vs (el e) with
        | None => UB
        | Some v =>
          let vs1 := vs ++ [v] in
          obind (match red e with
                 | None => Ok (None, vs1)
                 | Some r => match nth_error vs1 r with None => UB | Some w => Ok (Some (length vs1), vs1 ++ [w]) end
                 end) (fun p =>
          match lock st (coarser e) with
          | None => Ok ([mkE None prev (length vs) (fst p)], snd p)
          | Some y => obind (copy_loop f st (S base) (Some base) y (snd p)) (fun r =>
                      Ok (mkE (Some (S base)) prev (length vs) (fst p) :: fst r, snd r))
          end)
        end
      end
    end.
  Definition get_h (st : state) (h : nat) : outcome hier := match nth_error (hs st) h with Some (Some x) => Ok x | _ => UB end.
  Definition get_it (st : state) (i : nat) : outcome (option nat) := match nth_error (its st) i with Some (Some x) => Ok x | _ => UB end.
  (** dereferencing the element of an iterator: null is undefined behaviour *)
  Definition get_elem (st : state) (p : option nat) : outcome (nat * elem) :=
    match p with None => UB | Some x => match nth_error (heap st) x with Some e => Ok (x, e) | None => UB end end.
  Definition new_it (st : state) (p : option nat) : outcome (state * obs) :=
    Ok (with_its st (its st ++ [Some p]), OHandle (length (its st))).
  Definition set_it (st : state) (i : nat) (p : option nat) : outcome (state * obs) := Ok (with_its st (set_nth (its st) i (Some p)), ODone).
  Definition read_val (st : state) (p : nat) : outcome (state * obs) :=
    match nth_error (vals st) p with Some v => Ok (st, OValue v) | None => UB end.
  Definition write_val (st : state) (p : nat) (v : T) : outcome (state * obs) :=
    match nth_error (vals st) p with Some _ => Ok (with_vals st (set_nth (vals st) p v), ODone) | None => UB end.

  Definition step (st : state) (o : op) : outcome (state * obs) :=
    match o with
    | MakeValue v => Ok (with_vals st (vals st ++ [v]), OHandle (length (vals st)))
    | ReadValue p => read_val st p
    | WriteValue p v => write_val st p v
    | New p =>                                                                      (* hierarchy.hh:271-279 *)
      match nth_error (vals st) p with
      | None => UB
      | Some _ => let x := length (heap st) in
        Ok (mkSt (heap st ++ [mkE None None p None]) (vals st) (hs st ++ [Some (mkH (Some x) (Some x) 1)]) (its st), OHandle (length (hs st)))
      end
    | NewEmpty => Ok (with_hs st (hs st ++ [Some (mkH None None 0)]), OHandle (length (hs st)))     (* hierarchy.hh:86-87 *)
    | Copy h => obind (get_h st h) (fun x =>                                        (* hierarchy.hh:283-326 *)
        match finest x with
        | None => Ok (with_hs st (hs st ++ [Some (mkH None None (levels x))]), OHandle (length (hs st)))
        | Some f => obind (copy_loop (length (heap st)) st (length (heap st)) None f (vals st)) (fun r =>
            Ok (mkSt (heap st ++ fst r) (snd r)
                  (hs st ++ [Some (mkH (Some (length (heap st))) (Some (length (heap st) + length (fst r) - 1)) (levels x))]) (its st),
                OHandle (length (hs st))))
        end)
    | Destroy h => obind (get_h st h) (fun _ => Ok (with_hs st (set_nth (hs st) h None), ODone))
    | AddCoarser h v => obind (get_h st h) (fun x =>                                (* hierarchy.hh:341-360 *)
        let id := length (heap st) in
        match coarsest x with
        | None => Ok (mkSt (heap st ++ [mkE None None (length (vals st)) None]) (vals st ++ [v])
                        (set_nth (hs st) h (Some (mkH (Some id) (Some id) (S (levels x))))) (its st), ODone)
        | Some old =>
          match nth_error (heap st) old with
          | None => UB
          | Some eo => Ok (mkSt (set_nth (heap st) old (mkE (Some id) (finer eo) (el eo) (red eo)) ++ [mkE None (Some old) (length (vals st)) None])
                             (vals st ++ [v]) (set_nth (hs st) h (Some (mkH (finest x) (Some id) (S (levels x))))) (its st), ODone)
          end
        end)
    | AddRedistributed h v => obind (get_h st h) (fun x => obind (get_elem st (coarsest x)) (fun '(id, e) =>       (* hierarchy.hh:335-338 *)
        Ok (mkSt (set_nth (heap st) id (mkE (coarser e) (finer e) (el e) (Some (length (vals st))))) (vals st ++ [v]) (hs st) (its st), ODone)))
    | Levels h => obind (get_h st h) (fun x => Ok (st, ONat (levels x)))            (* hierarchy.hh:328-332 *)
    | Finest h => obind (get_h st h) (fun x => new_it st (finest x))                (* hierarchy.hh:384-394 *)
    | Coarsest h => obind (get_h st h) (fun x => new_it st (coarsest x))
    | CopyIt i => obind (get_it st i) (fun p => new_it st p)                        (* hierarchy.hh:136-142 *)
    | DropIt i => obind (get_it st i) (fun _ => Ok (with_its st (set_nth (its st) i None), ODone))
    | Increment i => obind (get_it st i) (fun p => obind (get_elem st p) (fun '(_, e) => set_it st i (lock st (coarser e))))    (* hierarchy.hh:178-181 *)
    | Decrement i => obind (get_it st i) (fun p => obind (get_elem st p) (fun '(_, e) => set_it st i (finer e)))                (* hierarchy.hh:184-187 *)
    | Equal i j => obind (get_it st i) (fun p => obind (get_it st j) (fun q =>      (* hierarchy.hh:156-169 *)
        Ok (st, OBool (match p, q with None, None => true | Some x, Some y => x =? y | _, _ => false end))))
    | IsNull i => obind (get_it st i) (fun p => Ok (st, OBool (match p with None => true | Some _ => false end)))    (* comparison with Iterator() *)
    | Read i => obind (get_it st i) (fun p => obind (get_elem st p) (fun '(_, e) => read_val st (el e)))             (* hierarchy.hh:172-175 *)
    | Write i v => obind (get_it st i) (fun p => obind (get_elem st p) (fun '(_, e) => write_val st (el e) v))
    | IsRedistributed i => obind (get_it st i) (fun p => obind (get_elem st p) (fun '(_, e) =>                       (* hierarchy.hh:193-196 *)
        Ok (st, OBool (match red e with Some _ => true | None => false end))))
    | ReadRedistributed i => obind (get_it st i) (fun p => obind (get_elem st p) (fun '(_, e) =>                     (* hierarchy.hh:202-206 *)
        match red e with Some r => read_val st r | None => UB end))
    | WriteRedistributed i v => obind (get_it st i) (fun p => obind (get_elem st p) (fun '(_, e) =>
        match red e with Some r => write_val st r v | None => UB end))
    | SetRedistributed i p => obind (get_it st i) (fun q => obind (get_elem st q) (fun '(x, e) =>                    (* hierarchy.hh:207-210 *)
        match nth_error (vals st) p with
        | None => UB
        | Some _ => Ok (with_heap st (set_nth (heap st) x (mkE (coarser e) (finer e) (el e) (Some p))), ODone)
        end))
    | DeleteRedistributed i => obind (get_it st i) (fun q => obind (get_elem st q) (fun '(x, e) =>                   (* hierarchy.hh:212-215 *)
        Ok (with_heap st (set_nth (heap st) x (mkE (coarser e) (finer e) (el e) None)), ODone)))
    end.
  Definition init : state := mkSt [] [] [] [].
  Fixpoint run (st : state) (ops : list op) : list (outcome obs) :=
    match ops with
    | [] => []
    | o :: t => match step st o with
                | Ok (st', b) => Ok b :: run st' t
                | Throw e => [Throw e]
                | UB => [UB]
                end
    end.

  (** ** Specification: every hierarchy is a list of levels, finest first; an iterator is a position in such a list or the end *)
  (** One list per hierarchy ever filled; it stays what it is when the hierarchy is destroyed, as far as iterators still refer to it. *)
  Record spec := mkSp { lists : list (list (nat * option nat)); svals : list T;
                        owner : list (option (option nat));              (* per hierarchy: destroyed, empty, or the number of its list *)
                        sits : list (option (option (nat * nat))) }.     (* per iterator: destroyed, end, or list and position *)
  Definition is_owner (s : nat) (o : option (option nat)) : bool := match o with Some (Some s') => s' =? s | _ => false end.
  Definition holds (s k : nat) (i : option (option (nat * nat))) : bool := match i with Some (Some (s', k')) => (s' =? s) && (k <=? k') | _ => false end.
  (** level k of list s still exists: its hierarchy does, or an iterator to it or to a coarser level does *)
  Definition exists_level (a : spec) (s k : nat) : bool := existsb (is_owner s) (owner a) || existsb (holds s k) (sits a).
  Definition contents (a : spec) (s : nat) : list (nat * option nat) := nth s (lists a) [].
  Definition s_h (a : spec) (h : nat) : outcome (option nat) := match nth_error (owner a) h with Some (Some x) => Ok x | _ => UB end.
  Definition s_it (a : spec) (i : nat) : outcome (option (nat * nat)) := match nth_error (sits a) i with Some (Some x) => Ok x | _ => UB end.
  Definition s_pos (a : spec) (i : nat) : outcome (nat * nat * (nat * option nat)) :=
    obind (s_it a i) (fun p => match p with
      | None => UB
      | Some (s, k) => match nth_error (contents a s) k with Some c => Ok (s, k, c) | None => UB end end).
  Definition s_new_it (a : spec) (p : option (nat * nat)) : outcome (spec * obs) :=
    Ok (mkSp (lists a) (svals a) (owner a) (sits a ++ [Some p]), OHandle (length (sits a))).
  Definition s_set_it (a : spec) (i : nat) (p : option (nat * nat)) : outcome (spec * obs) :=
    Ok (mkSp (lists a) (svals a) (owner a) (set_nth (sits a) i (Some p)), ODone).
  Definition s_read (a : spec) (p : nat) : outcome (spec * obs) := match nth_error (svals a) p with Some v => Ok (a, OValue v) | None => UB end.
  Definition s_write (a : spec) (p : nat) (v : T) : outcome (spec * obs) :=
    match nth_error (svals a) p with Some _ => Ok (mkSp (lists a) (set_nth (svals a) p v) (owner a) (sits a), ODone) | None => UB end.
  Definition s_set (a : spec) (s k : nat) (c : nat * option nat) (vs : list T) : outcome (spec * obs) :=
    Ok (mkSp (set_nth (lists a) s (set_nth (contents a s) k c)) vs (owner a) (sits a), ODone).
  (** deep copy: new values for all levels *)
  Fixpoint copied (l : list (nat * option nat)) (vs : list T) : outcome (list (nat * option nat) * list T) :=
    match l with
    | [] => Ok ([], vs)
    | (p, r) :: t =>
      match nth_error vs p with
      | None => UB
      | Some v => let vs1 := vs ++ [v] in
        obind (match r with
               | None => Ok (None, vs1)
               | Some q => match nth_error vs1 q with None => UB | Some w => Ok (Some (length vs1), vs1 ++ [w]) end
               end) (fun x => obind (copied t (snd x)) (fun y => Ok ((length vs, fst x) :: fst y, snd y)))
      end
    end.
  Definition spec_step (a : spec) (o : op) : outcome (spec * obs) :=
    match o with
    | MakeValue v => Ok (mkSp (lists a) (svals a ++ [v]) (owner a) (sits a), OHandle (length (svals a)))
    | ReadValue p => s_read a p
    | WriteValue p v => s_write a p v
    | New p => match nth_error (svals a) p with
               | None => UB
               | Some _ => Ok (mkSp (lists a ++ [[(p, None)]]) (svals a) (owner a ++ [Some (Some (length (lists a)))]) (sits a), OHandle (length (owner a)))
               end
    | NewEmpty => Ok (mkSp (lists a) (svals a) (owner a ++ [Some None]) (sits a), OHandle (length (owner a)))
    | Copy h => obind (s_h a h) (fun x => match x with
        | None => Ok (mkSp (lists a) (svals a) (owner a ++ [Some None]) (sits a), OHandle (length (owner a)))
        | Some s => obind (copied (contents a s) (svals a)) (fun r =>
            Ok (mkSp (lists a ++ [fst r]) (snd r) (owner a ++ [Some (Some (length (lists a)))]) (sits a), OHandle (length (owner a))))
        end)
    | Destroy h => obind (s_h a h) (fun _ => Ok (mkSp (lists a) (svals a) (set_nth (owner a) h None) (sits a), ODone))
    | AddCoarser h v => obind (s_h a h) (fun x => match x with
        | None => Ok (mkSp (lists a ++ [[(length (svals a), None)]]) (svals a ++ [v]) (set_nth (owner a) h (Some (Some (length (lists a))))) (sits a), ODone)
        | Some s => Ok (mkSp (set_nth (lists a) s (contents a s ++ [(length (svals a), None)])) (svals a ++ [v]) (owner a) (sits a), ODone)
        end)
    | AddRedistributed h v => obind (s_h a h) (fun x => match x with
        | None => UB
        | Some s => let k := length (contents a s) - 1 in
                    s_set a s k (fst (nth k (contents a s) (0, None)), Some (length (svals a))) (svals a ++ [v])
        end)
    | Levels h => obind (s_h a h) (fun x => Ok (a, ONat (match x with None => 0 | Some s => length (contents a s) end)))
    | Finest h => obind (s_h a h) (fun x => s_new_it a (match x with None => None | Some s => Some (s, 0) end))
    | Coarsest h => obind (s_h a h) (fun x => s_new_it a (match x with None => None | Some s => Some (s, length (contents a s) - 1) end))
    | CopyIt i => obind (s_it a i) (fun p => s_new_it a p)
    | DropIt i => obind (s_it a i) (fun _ => Ok (mkSp (lists a) (svals a) (owner a) (set_nth (sits a) i None), ODone))
    | Increment i => obind (s_pos a i) (fun '(s, k, _) =>
        s_set_it a i (if (S k <? length (contents a s)) && exists_level a s (S k) then Some (s, S k) else None))
    | Decrement i => obind (s_pos a i) (fun '(s, k, _) => s_set_it a i (match k with 0 => None | S j => Some (s, j) end))
    | Equal i j => obind (s_it a i) (fun p => obind (s_it a j) (fun q =>
        Ok (a, OBool (match p, q with None, None => true | Some (s, k), Some (s', k') => (s =? s') && (k =? k') | _, _ => false end))))
    | IsNull i => obind (s_it a i) (fun p => Ok (a, OBool (match p with None => true | Some _ => false end)))
    | Read i => obind (s_pos a i) (fun '(_, _, c) => s_read a (fst c))
    | Write i v => obind (s_pos a i) (fun '(_, _, c) => s_write a (fst c) v)
    | IsRedistributed i => obind (s_pos a i) (fun '(_, _, c) => Ok (a, OBool (match snd c with Some _ => true | None => false end)))
    | ReadRedistributed i => obind (s_pos a i) (fun '(_, _, c) => match snd c with Some r => s_read a r | None => UB end)
    | WriteRedistributed i v => obind (s_pos a i) (fun '(_, _, c) => match snd c with Some r => s_write a r v | None => UB end)
    | SetRedistributed i p => obind (s_pos a i) (fun '(s, k, c) =>
        match nth_error (svals a) p with None => UB | Some _ => s_set a s k (fst c, Some p) (svals a) end)
    | DeleteRedistributed i => obind (s_pos a i) (fun '(s, k, c) => s_set a s k (fst c, None) (svals a))
    end.
  Definition spec_init : spec := mkSp [] [] [] [].
  Fixpoint spec_run (a : spec) (ops : list op) : list (outcome obs) :=
    match ops with
    | [] => []
    | o :: t => match spec_step a o with
                | Ok (a', b) => Ok b :: spec_run a' t
                | Throw e => [Throw e]
                | UB => [UB]
                end
    end.

  (** ** Refinement *)
  Lemma set_nth_length {A} (l : list A) k a : length (set_nth l k a) = length l.
  Proof.
    unfold set_nth. rewrite app_length. pose proof (skipn_length k l) as H. pose proof (firstn_length k l) as H2.
    destruct (skipn k l); cbn [length] in *; lia.
  Qed.
  Lemma set_nth_spec {A} (l : list A) k a j : nth_error (set_nth l k a) j = if (j =? k) && (k <? length l) then Some a else nth_error l j.
  Proof.
    unfold set_nth. revert k j. induction l as [|b l IH]; intros k j.
    - rewrite firstn_nil, skipn_nil. cbn. rewrite andb_comm. destruct j; reflexivity.
    - destruct k as [|k], j as [|j]; cbn [firstn skipn app nth_error length]; try reflexivity.
      rewrite IH. reflexivity.
  Qed.
  Lemma set_nth_nth {A} (l : list A) k a j d : k < length l -> nth j (set_nth l k a) d = if j =? k then a else nth j l d.
  Proof.
    intros H. destruct (Nat.ltb_spec j (length l)) as [Hj|Hj].
    - apply nth_error_nth. rewrite set_nth_spec. destruct (Nat.ltb_spec k (length l)); [|lia]. rewrite andb_true_r.
      destruct (j =? k); [reflexivity|]. apply nth_error_nth'. exact Hj.
    - rewrite !nth_overflow by (rewrite ?set_nth_length; exact Hj). destruct (Nat.eqb_spec j k); [lia|reflexivity].
  Qed.
  Lemma nth_app_new {A} (l : list A) a j d : nth j (l ++ [a]) d = if j =? length l then a else nth j l d.
  Proof.
    destruct (Nat.eqb_spec j (length l)) as [->|H]; [rewrite app_nth2, Nat.sub_diag by lia; reflexivity|].
    destruct (Nat.ltb_spec j (length l)); [apply app_nth1; assumption|]. rewrite !nth_overflow; [reflexivity| |]; rewrite ?app_length; cbn; lia.
  Qed.
  Lemma nth_error_some_lt {A} (l : list A) k a : nth_error l k = Some a -> k < length l.
  Proof. intros H. apply nth_error_Some. congruence. Qed.

  (** the elements of list [s] have the numbers [nth s sp []] *)
  Record core (hp : list elem) (sp : list (list nat)) (ls : list (list (nat * option nat))) : Prop := {
    c_len : length sp = length ls;
    c_lens : forall s, length (nth s sp []) = length (nth s ls []);
    c_at : forall s k x, nth_error (nth s sp []) k = Some x -> k <= x /\ exists e, nth_error hp x = Some e /\
             finer e = match k with 0 => None | S j => nth_error (nth s sp []) j end /\
             coarser e = nth_error (nth s sp []) (S k) /\ nth_error (nth s ls []) k = Some (el e, red e);
    c_inj : forall s k s' k' x, nth_error (nth s sp []) k = Some x -> nth_error (nth s' sp []) k' = Some x -> s = s' /\ k = k' }.
  Definition rel_h (sp : list (list nat)) (c : option hier) (a : option (option nat)) : Prop :=
    match c, a with
    | None, None => True
    | Some h, Some None => h = mkH None None 0
    | Some h, Some (Some s) => s < length sp /\ nth s sp [] <> [] /\ finest h = nth_error (nth s sp []) 0 /\
        coarsest h = nth_error (nth s sp []) (length (nth s sp []) - 1) /\ levels h = length (nth s sp [])
    | _, _ => False
    end.
  Definition rel_it (sp : list (list nat)) (c : option (option nat)) (a : option (option (nat * nat))) : Prop :=
    match c, a with
    | None, None => True
    | Some None, Some None => True
    | Some (Some x), Some (Some (s, k)) => nth_error (nth s sp []) k = Some x
    | _, _ => False
    end.
  Definition pointwise {A B} (P : A -> B -> Prop) (l : list A) (m : list B) : Prop :=
    length l = length m /\ forall i, match nth_error l i, nth_error m i with Some a, Some b => P a b | None, None => True | _, _ => False end.
  Record sim (c : state) (a : spec) (sp : list (list nat)) : Prop := {
    s_core : core (heap c) sp (lists a);
    s_val : vals c = svals a;
    s_hs : pointwise (rel_h sp) (hs c) (owner a);
    s_own : forall h h' s, nth_error (owner a) h = Some (Some (Some s)) -> nth_error (owner a) h' = Some (Some (Some s)) -> h = h';
    s_its : pointwise (rel_it sp) (its c) (sits a) }.

  Lemma pw_app {A B} (P : A -> B -> Prop) l m x y : pointwise P l m -> P x y -> pointwise P (l ++ [x]) (m ++ [y]).
  Proof.
    intros [H1 H2] H. split; [rewrite !app_length; cbn; lia|]. intros i. destruct (Nat.lt_ge_cases i (length l)) as [Hi|Hi].
    - rewrite !nth_error_app1 by lia. apply H2.
    - rewrite !nth_error_app2 by lia. rewrite H1. destruct (i - length m) as [|[|j]]; cbn; auto.
  Qed.
  Lemma pw_set {A B} (P : A -> B -> Prop) l m k x y : pointwise P l m -> P x y -> pointwise P (set_nth l k x) (set_nth m k y).
  Proof.
    intros [H1 H2] H. split; [rewrite !set_nth_length; exact H1|]. intros i. rewrite !set_nth_spec, H1.
    destruct ((i =? k) && (k <? length m)); [exact H | apply H2].
  Qed.
  Lemma pw_impl {A B} (P Q : A -> B -> Prop) l m : (forall x y, In y m -> P x y -> Q x y) -> pointwise P l m -> pointwise Q l m.
  Proof.
    intros HI [H1 H2]. split; [exact H1|]. intros i. specialize (H2 i). destruct (nth_error l i), (nth_error m i) eqn:E; auto.
    apply HI; [apply (nth_error_In m i E) | exact H2].
  Qed.

  Lemma owns_spec hp sp ls : core hp sp ls -> forall fuel s j y x, nth_error (nth s sp []) j = Some y -> j < fuel ->
    (owns fuel hp y x = true <-> exists k, k <= j /\ nth_error (nth s sp []) k = Some x).
  Proof.
    intros C. induction fuel as [|f IH]; intros s j y x Hy Hf; [lia|]. cbn [owns].
    destruct (c_at _ _ _ C s j y Hy) as (_ & e & Ee & Ef & _). rewrite Ee, Ef. rewrite orb_true_iff, Nat.eqb_eq. split.
    - intros [->|H]; [exists j; auto|]. destruct j as [|j]; [discriminate|]. destruct (nth_error (nth s sp []) j) as [y'|] eqn:Ey; [|discriminate].
      apply (IH s j y' x Ey ltac:(lia)) in H. destruct H as (k & Hk & H). exists k. split; [lia | exact H].
    - intros (k & Hk & H). destruct (Nat.eq_dec k j) as [->|Hne]; [left; congruence|]. right. destruct j as [|j]; [lia|].
      destruct (nth_error (nth s sp []) j) as [y'|] eqn:Ey; [|apply nth_error_None in Ey; apply nth_error_some_lt in Hy; lia].
      apply (IH s j y' x Ey ltac:(lia)). exists k. split; [lia | exact H].
  Qed.
  Lemma id_lt hp sp ls s k x : core hp sp ls -> nth_error (nth s sp []) k = Some x -> k <= x /\ x < length hp.
  Proof. intros C H. destruct (c_at _ _ _ C s k x H) as (H1 & e & He & _). split; [exact H1|]. apply (nth_error_some_lt _ _ _ He). Qed.
  Lemma alive_spec c a sp s k x : sim c a sp -> nth_error (nth s sp []) k = Some x -> alive c x = exists_level a s k.
  Proof.
    intros S Hx. pose proof (s_core _ _ _ S) as C. apply eq_true_iff_eq. unfold alive, exists_level. rewrite orb_true_iff. rewrite !existsb_exists. split.
    - intros (r & Hr & Ho). unfold roots in Hr. apply in_app_iff in Hr. destruct Hr as [Hr|Hr]; apply in_flat_map in Hr; destruct Hr as (o & HI & Hr).
      + left. apply In_nth_error in HI. destruct HI as [i Hi]. pose proof (proj2 (s_hs _ _ _ S) i) as R. rewrite Hi in R.
        destruct (nth_error (owner a) i) as [b|] eqn:Eb; [|contradiction]. exists b. split; [apply (nth_error_In _ _ Eb)|].
        destruct o as [h|]; [|destruct Hr]. destruct b as [[s'|]|]; cbn [rel_h] in R; [|subst h; destruct Hr|contradiction].
        destruct R as (Hs & Hn & Ef & Ec & _). cbn [is_owner].
        assert (HR : exists j, nth_error (nth s' sp []) j = Some r).
        { apply in_app_iff in Hr. destruct Hr as [Hr|Hr].
          - rewrite Ef in Hr. destruct (nth_error (nth s' sp []) 0) eqn:E0; [|destruct Hr]; destruct Hr as [<-|[]]; eauto.
          - rewrite Ec in Hr. destruct (nth_error (nth s' sp []) (length (nth s' sp []) - 1)) eqn:E0; [|destruct Hr]; destruct Hr as [<-|[]]; eauto. }
        destruct HR as [j Hj]. destruct (id_lt _ _ _ _ _ _ C Hj) as [L1 L2].
        apply (owns_spec _ _ _ C (length (heap c)) s' j r x Hj ltac:(lia)) in Ho. destruct Ho as (k' & _ & Hk').
        destruct (c_inj _ _ _ C _ _ _ _ _ Hx Hk') as [<- _]. apply Nat.eqb_refl.
      + right. apply In_nth_error in HI. destruct HI as [i Hi]. pose proof (proj2 (s_its _ _ _ S) i) as R. rewrite Hi in R.
        destruct (nth_error (sits a) i) as [b|] eqn:Eb; [|contradiction]. exists b. split; [apply (nth_error_In _ _ Eb)|].
        destruct o as [[y|]|]; try (destruct Hr; fail). destruct Hr as [<-|[]]. destruct b as [[[s' j]|]|]; cbn [rel_it] in R; try contradiction.
        destruct (id_lt _ _ _ _ _ _ C R) as [L1 L2]. apply (owns_spec _ _ _ C (length (heap c)) s' j y x R ltac:(lia)) in Ho. destruct Ho as (k' & Hk & Hk').
        destruct (c_inj _ _ _ C _ _ _ _ _ Hx Hk') as [<- <-]. cbn [holds]. rewrite Nat.eqb_refl. apply Nat.leb_le. exact Hk.
    - intros [(b & HI & Hb)|(b & HI & Hb)]; apply In_nth_error in HI; destruct HI as [i Hi].
      + pose proof (proj2 (s_hs _ _ _ S) i) as R. rewrite Hi in R. destruct (nth_error (hs c) i) as [o|] eqn:Eo; [|contradiction].
        destruct b as [[s'|]|]; try discriminate. cbn [is_owner] in Hb. apply Nat.eqb_eq in Hb. subst s'.
        destruct o as [h|]; cbn [rel_h] in R; [|contradiction]. destruct R as (Hs & Hn & Ef & Ec & _).
        destruct (nth_error (nth s sp []) (length (nth s sp []) - 1)) as [r|] eqn:Er.
        2:{ apply nth_error_None in Er. destruct (nth s sp []); [congruence | cbn in Er; lia]. }
        exists r. split.
        * unfold roots. apply in_app_iff. left. apply in_flat_map. exists (Some h). split; [apply (nth_error_In _ _ Eo)|]. apply in_app_iff. right. rewrite Ec. left. reflexivity.
        * destruct (id_lt _ _ _ _ _ _ C Er) as [L1 L2]. apply (owns_spec _ _ _ C (length (heap c)) s _ r x Er ltac:(lia)). exists k. split; [|exact Hx].
          apply nth_error_some_lt in Hx. lia.
      + pose proof (proj2 (s_its _ _ _ S) i) as R. rewrite Hi in R. destruct (nth_error (its c) i) as [o|] eqn:Eo; [|contradiction].
        destruct b as [[[s' j]|]|]; try discriminate. cbn [holds] in Hb. apply andb_true_iff in Hb. destruct Hb as [Hb Hj]. apply Nat.eqb_eq in Hb. subst s'. apply Nat.leb_le in Hj.
        destruct o as [[y|]|]; cbn [rel_it] in R; try contradiction. exists y. split.
        * unfold roots. apply in_app_iff. right. apply in_flat_map. exists (Some (Some y)). split; [apply (nth_error_In _ _ Eo) | left; reflexivity].
        * destruct (id_lt _ _ _ _ _ _ C R) as [L1 L2]. apply (owns_spec _ _ _ C (length (heap c)) s _ y x R ltac:(lia)). eauto.
  Qed.

  (** how the elements change *)
  Lemma core_new hp sp ls es cs : core hp sp ls -> length cs = length es ->
    (forall i e, nth_error es i = Some e -> finer e = match i with 0 => None | S j => Some (length hp + j) end /\
       coarser e = (if S i <? length es then Some (length hp + S i) else None) /\ nth_error cs i = Some (el e, red e)) ->
    core (hp ++ es) (sp ++ [seq (length hp) (length es)]) (ls ++ [cs]).
  Proof.
    intros C HL HE. pose proof (c_len _ _ _ C) as L.
    assert (AT : forall s k x, nth_error (nth s (sp ++ [seq (length hp) (length es)]) []) k = Some x ->
      (s = length sp /\ x = length hp + k /\ k < length es) \/ (s <> length sp /\ nth_error (nth s sp []) k = Some x)).
    { intros s k x H. rewrite nth_app_new in H. destruct (Nat.eqb_spec s (length sp)) as [E|E]; [left | right; auto]. split; [exact E|].
      pose proof (nth_error_some_lt _ _ _ H) as Hk. rewrite seq_length in Hk. split; [|exact Hk].
      apply nth_error_nth with (d := 0) in H. rewrite seq_nth in H by exact Hk. lia. }
    split.
    - rewrite !app_length. cbn. lia.
    - intros s. rewrite !nth_app_new, L. destruct (s =? length ls); [rewrite seq_length; lia | apply (c_lens _ _ _ C)].
    - intros s k x H. destruct (AT s k x H) as [(-> & -> & Hk)|(Hs & H')].
      + split; [lia|]. destruct (nth_error es k) as [e|] eqn:Ee; [|apply nth_error_None in Ee; lia].
        exists e. rewrite nth_error_app2, Nat.add_comm, Nat.add_sub by lia. split; [exact Ee|].
        destruct (HE k e Ee) as (E1 & E2 & E3). rewrite E1, E2. rewrite !nth_app_new, Nat.eqb_refl.
        rewrite L, Nat.eqb_refl. split; [|split; [|exact E3]].
        * destruct k as [|j]; [reflexivity|]. rewrite (nth_error_nth' _ 0) by (rewrite seq_length; lia). rewrite seq_nth by lia. reflexivity.
        * destruct (Nat.ltb_spec (S k) (length es)) as [Q|Q].
          -- rewrite (nth_error_nth' _ 0) by (rewrite seq_length; lia). rewrite seq_nth by lia. reflexivity.
          -- symmetry. apply nth_error_None. rewrite seq_length. exact Q.
      + destruct (c_at _ _ _ C s k x H') as (Q1 & e & Q2 & Q3 & Q4 & Q5). split; [exact Q1|]. exists e.
        rewrite nth_error_app1 by (apply (nth_error_some_lt _ _ _ Q2)). rewrite !nth_app_new, <- L. destruct (Nat.eqb_spec s (length sp)); [congruence|]. auto.
    - intros s k s' k' x H H'. destruct (AT s k x H) as [(-> & -> & Hk)|(Hs & Q)], (AT s' k' _ H') as [(-> & E & Hk')|(Hs' & Q')].
      + split; [reflexivity | lia].
      + apply (id_lt _ _ _ _ _ _ C) in Q'. lia.
      + apply (id_lt _ _ _ _ _ _ C) in Q. lia.
      + apply (c_inj _ _ _ C _ _ _ _ _ Q Q').
  Qed.
  Lemma core_extend hp sp ls s old eo v : core hp sp ls -> s < length sp -> nth_error (nth s sp []) (length (nth s sp []) - 1) = Some old -> nth_error hp old = Some eo ->
    core (set_nth hp old (mkE (Some (length hp)) (finer eo) (el eo) (red eo)) ++ [mkE None (Some old) v None])
      (set_nth sp s (nth s sp [] ++ [length hp])) (set_nth ls s (nth s ls [] ++ [(v, None)])).
  Proof.
    intros C Hs Ho He. pose proof (c_len _ _ _ C) as L. pose proof (c_lens _ _ _ C s) as Ls. pose proof (id_lt _ _ _ _ _ _ C Ho) as [O1 O2].
    remember (length (nth s sp [])) as n eqn:EN in *.
    assert (N0 : n <> 0). { pose proof (nth_error_some_lt _ _ _ Ho). rewrite <- ?EN in H. lia. }
    assert (AT : forall t k x, nth_error (nth t (set_nth sp s (nth s sp [] ++ [length hp])) []) k = Some x ->
      (t = s /\ k = n /\ x = length hp) \/ (nth_error (nth t sp []) k = Some x)).
    { intros t k x H. rewrite set_nth_nth in H by exact Hs. destruct (Nat.eqb_spec t s) as [E|E]; [|right; exact H]. subst t.
      destruct (Nat.lt_ge_cases k n) as [Hk|Hk]; [rewrite nth_error_app1 in H by lia; right; exact H|].
      left. pose proof (nth_error_some_lt _ _ _ H) as Hl. rewrite app_length in Hl. cbn in Hl. rewrite <- ?EN in Hl. rewrite nth_error_app2 in H by lia.
      assert (Ek : k = n) by lia. rewrite <- EN, Ek, Nat.sub_diag in H. cbn in H. split; [reflexivity|]. split; [exact Ek | congruence]. }
    split.
    - rewrite !set_nth_length. exact L.
    - intros t. rewrite !set_nth_nth by lia. destruct (t =? s); [rewrite !app_length; rewrite <- ?EN; cbn; lia | apply (c_lens _ _ _ C)].
    - intros t k x H. destruct (AT t k x H) as [(-> & -> & ->)|H'].
      + split. { lia. }
        exists (mkE None (Some old) v None). rewrite nth_error_app2 by (rewrite set_nth_length; lia). rewrite set_nth_length, Nat.sub_diag. cbn [finer coarser el red].
        rewrite !set_nth_nth by lia. rewrite Nat.eqb_refl. split; [reflexivity|]. split; [|split].
        * destruct n as [|j]; [lia|]. rewrite nth_error_app1 by (rewrite <- ?EN; lia). replace (S j - 1) with j in Ho by lia. symmetry. exact Ho.
        * symmetry. apply nth_error_None. rewrite app_length. rewrite <- ?EN. cbn. lia.
        * rewrite nth_error_app2 by lia. rewrite <- Ls, Nat.sub_diag. reflexivity.
      + destruct (c_at _ _ _ C t k x H') as (Q1 & e & Q2 & Q3 & Q4 & Q5). split; [exact Q1|].
        rewrite nth_error_app1 by (rewrite set_nth_length; apply (nth_error_some_lt _ _ _ Q2)). rewrite set_nth_spec. rewrite !set_nth_nth by lia.
        pose proof (nth_error_some_lt _ _ _ H') as Hk.
        destruct (Nat.eqb_spec x old) as [E|E].
        * subst x. destruct (c_inj _ _ _ C _ _ _ _ _ H' Ho) as [-> ->]. rewrite Nat.eqb_refl. destruct (Nat.ltb_spec old (length hp)); [|lia]. cbn [andb].
          rewrite Q2 in He. injection He as <-. eexists. split; [reflexivity|]. cbn [finer coarser el red]. split; [|split].
          -- rewrite Q3. destruct (n - 1) as [|j] eqn:En; [reflexivity|]. rewrite nth_error_app1 by (rewrite <- ?EN; lia). reflexivity.
          -- rewrite nth_error_app2 by (rewrite <- ?EN; lia). rewrite <- ?EN. replace (S (n - 1) - n) with 0 by lia. reflexivity.
          -- rewrite nth_error_app1 by lia. exact Q5.
        * cbn [andb]. exists e. split; [exact Q2|]. destruct (Nat.eqb_spec t s) as [Et|Et]; [|auto]. subst t. rewrite <- ?EN in Hk.
          assert (k <> n - 1). { intros ->. congruence. }
          split; [|split].
          -- rewrite Q3. destruct k as [|j]; [reflexivity|]. rewrite nth_error_app1 by (rewrite <- ?EN; lia). reflexivity.
          -- rewrite Q4, nth_error_app1 by (rewrite <- ?EN; lia). reflexivity.
          -- rewrite nth_error_app1 by lia. exact Q5.
    - intros t k t' k' x H H'. destruct (AT t k x H) as [(-> & -> & ->)|Q], (AT t' k' _ H') as [(-> & E & Hk')|Q'].
      + auto.
      + apply (id_lt _ _ _ _ _ _ C) in Q'. lia.
      + apply (id_lt _ _ _ _ _ _ C) in Q. lia.
      + apply (c_inj _ _ _ C _ _ _ _ _ Q Q').
  Qed.
  Lemma core_set hp sp ls s k x e r : core hp sp ls -> nth_error (nth s sp []) k = Some x -> nth_error hp x = Some e ->
    core (set_nth hp x (mkE (coarser e) (finer e) (el e) r)) sp (set_nth ls s (set_nth (nth s ls []) k (el e, r))).
  Proof.
    intros C Hx He. pose proof (c_len _ _ _ C) as L.
    assert (Hs : s < length ls). { destruct (Nat.lt_ge_cases s (length ls)); auto. rewrite (nth_overflow sp) in Hx by lia. destruct k; discriminate. }
    split.
    - rewrite set_nth_length. exact L.
    - intros t. rewrite set_nth_nth by exact Hs. destruct (Nat.eqb_spec t s) as [->|E]; rewrite ?set_nth_length; apply (c_lens _ _ _ C).
    - intros t j y H. destruct (c_at _ _ _ C t j y H) as (Q1 & e' & Q2 & Q3 & Q4 & Q5). split; [exact Q1|]. rewrite set_nth_spec, set_nth_nth by exact Hs.
      destruct (Nat.eqb_spec y x) as [E|E].
      + subst y. destruct (c_inj _ _ _ C _ _ _ _ _ H Hx) as [-> ->]. pose proof (nth_error_some_lt _ _ _ He) as Hl. destruct (Nat.ltb_spec x (length hp)); [|lia].
        cbn [andb]. rewrite He in Q2. injection Q2 as <-. eexists. split; [reflexivity|]. cbn [finer coarser el red]. rewrite Nat.eqb_refl. split; [exact Q3|]. split; [exact Q4|].
        rewrite set_nth_spec, Nat.eqb_refl. pose proof (nth_error_some_lt _ _ _ Q5) as Hl2. destruct (Nat.ltb_spec k (length (nth s ls []))); [reflexivity|lia].
      + cbn [andb]. exists e'. split; [exact Q2|]. split; [exact Q3|]. split; [exact Q4|]. destruct (Nat.eqb_spec t s) as [Et|Et]; [|exact Q5]. subst t.
        rewrite set_nth_spec. destruct (Nat.eqb_spec j k) as [Ej|Ej]; [|exact Q5]. subst j. rewrite H in Hx. congruence.
    - apply (c_inj _ _ _ C).
  Qed.
  Lemma copy_spec c a sp s : sim c a sp -> existsb (is_owner s) (owner a) = true ->
    forall fuel k x base prev vs, nth_error (nth s sp []) k = Some x -> length (contents a s) <= fuel + k ->
    match copied (skipn k (contents a s)) vs with
    | Ok (cs, vs') => exists es, copy_loop fuel c base prev x vs = Ok (es, vs') /\ length cs = length es /\ 0 < length es /\
        forall i e, nth_error es i = Some e -> finer e = match i with 0 => prev | S j => Some (base + j) end /\
          coarser e = (if S i <? length es then Some (base + S i) else None) /\ nth_error cs i = Some (el e, red e)
    | Throw _ => False
    | UB => copy_loop fuel c base prev x vs = UB
    end.
  Proof.
    intros S HO. pose proof (s_core _ _ _ S) as C. pose proof (c_lens _ _ _ C s) as Ls.
    induction fuel as [|f IH]; intros k x base prev vs Hx Hf.
    { apply nth_error_some_lt in Hx. unfold contents in Hf. lia. }
    destruct (c_at _ _ _ C s k x Hx) as (_ & e & Ee & Ef & Ec & El). fold (contents a s) in El.
    assert (ES : skipn k (contents a s) = (el e, red e) :: skipn (Datatypes.S k) (contents a s)).
    { clear -El. revert El. generalize (contents a s). intros l. revert k. induction l as [|b l IH]; intros [|k] H; cbn in *; try discriminate; [congruence|]. apply IH, H. }
    rewrite ES. cbn [copied copy_loop]. rewrite Ee. destruct (nth_error vs (el e)) as [v|]; [|reflexivity].
    destruct (match red e with Some q => match nth_error (vs ++ [v]) q with Some w => Ok (Some (length (vs ++ [v])), (vs ++ [v]) ++ [w]) | None => UB end | None => Ok (None, vs ++ [v]) end)
      as [[r vs1]|e0|] eqn:ER; cbn [obind fst snd].
    3:{ reflexivity. }
    2:{ destruct (red e) as [q|]; [destruct (nth_error (vs ++ [v]) q)|]; discriminate. }
    rewrite Ec. destruct (nth_error (nth s sp []) (Datatypes.S k)) as [y|] eqn:Ey.
    - cbn [lock]. rewrite (alive_spec c a sp s (Datatypes.S k) y S Ey). unfold exists_level. rewrite HO. cbn [orb].
      specialize (IH (Datatypes.S k) y (Datatypes.S base) (Some base) vs1 Ey ltac:(lia)).
      destruct (copied (skipn (Datatypes.S k) (contents a s)) vs1) as [[cs vs']|e0|]; [|destruct IH|rewrite IH; reflexivity].
      destruct IH as (es & E & L & L0 & H). rewrite E. cbn [obind fst snd]. eexists. split; [reflexivity|]. cbn [length]. split; [lia|]. split; [lia|].
      intros i e' Hi. destruct i as [|i]; cbn [nth_error] in Hi.
      + injection Hi as <-. cbn [finer coarser el red nth_error]. split; [reflexivity|]. split; [|reflexivity].
        destruct (Nat.ltb_spec 1 (Datatypes.S (length es))); [f_equal; lia | lia].
      + destruct (H i e' Hi) as (H1 & H2 & H3). rewrite H1, H2. cbn [nth_error]. split; [destruct i; f_equal; lia|]. split; [|exact H3].
        change (Datatypes.S (Datatypes.S i) <? Datatypes.S (length es)) with (Datatypes.S i <? length es). destruct (Datatypes.S i <? length es); [f_equal; lia | reflexivity].
    - cbn [lock]. apply nth_error_None in Ey. assert (EK : skipn (Datatypes.S k) (contents a s) = []) by (apply skipn_all2; unfold contents; lia).
      rewrite EK. cbn [copied obind fst snd]. eexists. split; [reflexivity|]. cbn [length]. split; [reflexivity|]. split; [lia|].
      intros i e' Hi. destruct i as [|[|i]]; cbn [nth_error] in Hi; try discriminate. injection Hi as <-. cbn. auto.
  Qed.

  Lemma rel_h_new sp es o b : (forall s, o = Some (Some s) -> s < length sp) -> rel_h sp b o -> rel_h (sp ++ [es]) b o.
  Proof.
    intros H. destruct b as [h|], o as [[s|]|]; cbn [rel_h]; auto. specialize (H s eq_refl). rewrite nth_app_new. destruct (Nat.eqb_spec s (length sp)); [lia|].
    rewrite app_length. cbn [length]. intuition lia.
  Qed.
  Lemma rel_h_lt sp l m o s : pointwise (rel_h sp) l m -> In o m -> o = Some (Some s) -> s < length sp.
  Proof.
    intros [_ H] HI ->. apply In_nth_error in HI. destruct HI as [i Hi]. specialize (H i). rewrite Hi in H. destruct (nth_error l i) as [[h|]|]; cbn [rel_h] in H; tauto.
  Qed.
  Lemma hs_new sp es l m : pointwise (rel_h sp) l m -> pointwise (rel_h (sp ++ [es])) l m.
  Proof. intros H. apply (pw_impl (rel_h sp)); [|exact H]. intros x y Hy. apply rel_h_new. intros s. apply (rel_h_lt _ _ _ _ _ H Hy). Qed.
  Lemma its_new sp es l m : pointwise (rel_it sp) l m -> pointwise (rel_it (sp ++ [es])) l m.
  Proof.
    intros H. apply (pw_impl (rel_it sp)); [|exact H]. intros [[x|]|] [[[s k]|]|] _; cbn [rel_it]; auto. intros R. rewrite nth_app_new.
    destruct (Nat.eqb_spec s (length sp)); [|exact R]. subst s. rewrite nth_overflow in R by lia. destruct k; discriminate.
  Qed.
  Lemma sim_h c a sp h : sim c a sp -> 
    (get_h c h = UB /\ s_h a h = UB) \/
    (exists x, get_h c h = Ok x /\ s_h a h = Ok None /\ x = mkH None None 0 /\ nth_error (owner a) h = Some (Some None)) \/
    (exists x s, get_h c h = Ok x /\ s_h a h = Ok (Some s) /\ nth_error (owner a) h = Some (Some (Some s)) /\ rel_h sp (Some x) (Some (Some s))).
  Proof.
    intros S. unfold get_h, s_h. pose proof (proj2 (s_hs _ _ _ S) h) as R.
    destruct (nth_error (hs c) h) as [[x|]|], (nth_error (owner a) h) as [[[s|]|]|]; cbn [rel_h] in R; try contradiction; auto.
    - right. right. exists x, s. auto.
    - right. left. exists x. auto.
  Qed.
  Lemma sim_it c a sp i : sim c a sp ->
    (get_it c i = UB /\ s_it a i = UB) \/ (get_it c i = Ok None /\ s_it a i = Ok None) \/
    (exists x s k, get_it c i = Ok (Some x) /\ s_it a i = Ok (Some (s, k)) /\ nth_error (nth s sp []) k = Some x).
  Proof.
    intros S. unfold get_it, s_it. pose proof (proj2 (s_its _ _ _ S) i) as R.
    destruct (nth_error (its c) i) as [[[x|]|]|], (nth_error (sits a) i) as [[[[s k]|]|]|]; cbn [rel_it] in R; try contradiction; auto.
    right. right. exists x, s, k. auto.
  Qed.
  Lemma sim_pos c a sp i : sim c a sp ->
    (obind (get_it c i) (get_elem c) = UB /\ s_pos a i = UB) \/
    (exists x e s k, get_it c i = Ok (Some x) /\ nth_error (heap c) x = Some e /\ obind (get_it c i) (get_elem c) = Ok (x, e) /\ s_pos a i = Ok (s, k, (el e, red e)) /\
       nth_error (nth s sp []) k = Some x /\ finer e = match k with 0 => None | Datatypes.S j => nth_error (nth s sp []) j end /\ coarser e = nth_error (nth s sp []) (Datatypes.S k)).
  Proof.
    intros S. unfold s_pos. destruct (sim_it c a sp i S) as [[-> ->]|[[-> ->]|(x & s & k & E1 & E2 & E3)]]; auto.
    right. destruct (c_at _ _ _ (s_core _ _ _ S) s k x E3) as (_ & e & Ee & Ef & Ec & El). exists x, e, s, k. rewrite E1, E2. cbn [obind get_elem].
    rewrite Ee. unfold contents. rewrite El. auto 10.
  Qed.
  Lemma obind_assoc {A B C} (o : outcome A) (f : A -> outcome B) (g : B -> outcome C) : obind o (fun x => obind (f x) g) = obind (obind o f) g.
  Proof. destruct o; reflexivity. Qed.

  Definition simulates (sp : list (list nat)) (r : outcome (state * obs)) (q : outcome (spec * obs)) : Prop :=
    match r, q with
    | Ok (c, b), Ok (a, b') => b = b' /\ exists sp', sim c a sp'
    | UB, UB => True
    | _, _ => False
    end.
  Lemma sim_its c a sp l m : sim c a sp -> pointwise (rel_it sp) l m -> sim (with_its c l) (mkSp (lists a) (svals a) (owner a) m) sp.
  Proof. intros [H1 H2 H3 H4 H5] H. split; auto. Qed.
  Lemma sim_vals c a sp vs : sim c a sp -> sim (with_vals c vs) (mkSp (lists a) vs (owner a) (sits a)) sp.
  Proof. intros [H1 H2 H3 H4 H5]. split; auto. Qed.
  Lemma sim_red c a sp s k x e r vs : sim c a sp -> nth_error (nth s sp []) k = Some x -> nth_error (heap c) x = Some e ->
    sim (mkSt (set_nth (heap c) x (mkE (coarser e) (finer e) (el e) r)) vs (hs c) (its c))
        (mkSp (set_nth (lists a) s (set_nth (contents a s) k (el e, r))) vs (owner a) (sits a)) sp.
  Proof. intros [H1 H2 H3 H4 H5] Hx He. split; auto. apply core_set; assumption. Qed.
  Lemma sim_read c a sp p : sim c a sp -> simulates sp (read_val c p) (s_read a p).
  Proof. intros S. unfold read_val, s_read. rewrite (s_val _ _ _ S). destruct (nth_error (svals a) p); cbn; eauto. Qed.
  Lemma sim_write c a sp p v : sim c a sp -> simulates sp (write_val c p v) (s_write a p v).
  Proof.
    intros S. unfold write_val, s_write. rewrite (s_val _ _ _ S). destruct (nth_error (svals a) p); cbn; [|auto]. split; [reflexivity|].
    exists sp. apply (sim_vals c a sp). exact S.
  Qed.
  (** a hierarchy with a new list *)
  Lemma sim_new c a sp es cs : sim c a sp -> length cs = length es -> 0 < length es ->
    (forall i e, nth_error es i = Some e -> finer e = match i with 0 => None | S j => Some (length (heap c) + j) end /\
       coarser e = (if S i <? length es then Some (length (heap c) + S i) else None) /\ nth_error cs i = Some (el e, red e)) ->
    let sp' := sp ++ [seq (length (heap c)) (length es)] in
    core (heap c ++ es) sp' (lists a ++ [cs]) /\
    pointwise (rel_h sp') (hs c) (owner a) /\ pointwise (rel_it sp') (its c) (sits a) /\
    rel_h sp' (Some (mkH (Some (length (heap c))) (Some (length (heap c) + length es - 1)) (length es))) (Some (Some (length (lists a)))) /\
    (forall h, nth_error (owner a) h <> Some (Some (Some (length (lists a))))).
  Proof.
    intros S HL H0 HE sp'. pose proof (c_len _ _ _ (s_core _ _ _ S)) as L. split; [apply core_new; [apply (s_core _ _ _ S) | exact HL | exact HE]|].
    split; [apply hs_new, (s_hs _ _ _ S)|]. split; [apply its_new, (s_its _ _ _ S)|]. split.
    - cbn [rel_h finest coarsest levels]. unfold sp'. rewrite app_length, nth_app_new, <- L, Nat.eqb_refl, seq_length. cbn [length]. split; [lia|].
      destruct (length es) as [|n] eqn:En; [lia|]. split; [discriminate|]. split; [reflexivity|]. split; [|reflexivity].
      rewrite (nth_error_nth' _ 0) by (rewrite seq_length; lia). rewrite seq_nth by lia. f_equal. lia.
    - intros h E. pose proof (rel_h_lt _ _ _ _ _ (s_hs _ _ _ S) (nth_error_In _ _ E) eq_refl). lia.
  Qed.
  Lemma own_app (o : list (option (option nat))) n : 
    (forall h h' s, nth_error o h = Some (Some (Some s)) -> nth_error o h' = Some (Some (Some s)) -> h = h') ->
    (forall s, n = Some (Some s) -> forall h, nth_error o h <> Some (Some (Some s))) ->
    forall h h' s, nth_error (o ++ [n]) h = Some (Some (Some s)) -> nth_error (o ++ [n]) h' = Some (Some (Some s)) -> h = h'.
  Proof.
    intros H HN h h' s E E'.
    assert (Q : forall k, nth_error (o ++ [n]) k = Some (Some (Some s)) -> nth_error o k = Some (Some (Some s)) \/ (k = length o /\ n = Some (Some s))).
    { intros k Ek. destruct (Nat.lt_ge_cases k (length o)) as [Hk|Hk]; [rewrite nth_error_app1 in Ek by exact Hk; auto|]. rewrite nth_error_app2 in Ek by exact Hk.
      destruct (k - length o) as [|[|j]] eqn:Ej; cbn in Ek; try discriminate. right. split; [lia | congruence]. }
    destruct (Q h E) as [E1|[E1 E2]], (Q h' E') as [E3|[E3 E4]].
    - apply (H _ _ _ E1 E3).
    - destruct (HN s E4 _ E1).
    - destruct (HN s E2 _ E3).
    - lia.
  Qed.
  Lemma own_set (o : list (option (option nat))) k n : 
    (forall h h' s, nth_error o h = Some (Some (Some s)) -> nth_error o h' = Some (Some (Some s)) -> h = h') ->
    (forall s, n = Some (Some s) -> forall h, nth_error o h <> Some (Some (Some s))) ->
    forall h h' s, nth_error (set_nth o k n) h = Some (Some (Some s)) -> nth_error (set_nth o k n) h' = Some (Some (Some s)) -> h = h'.
  Proof.
    intros H HN h h' s E E'. rewrite set_nth_spec in E, E'.
    destruct ((h =? k) && (k <? length o)) eqn:B, ((h' =? k) && (k <? length o)) eqn:B'.
    - apply andb_true_iff in B, B'. destruct B as [B _], B' as [B' _]. apply Nat.eqb_eq in B, B'. lia.
    - destruct (HN s ltac:(congruence) _ E').
    - destruct (HN s ltac:(congruence) _ E).
    - apply (H _ _ _ E E').
  Qed.

  Lemma sim_step c a sp o : sim c a sp -> simulates sp (step c o) (spec_step a o).
  Proof.
    intros S. pose proof S as [HC HV HH HO HI]. destruct o; cbn [step spec_step].
    - (* MakeValue *) rewrite HV. cbn. split; [reflexivity|]. exists sp. apply (sim_vals c a sp), S.
    - apply sim_read, S.
    - apply sim_write, S.
    - (* New *) rewrite HV. destruct (nth_error (svals a) p); [|exact I]. cbn. split; [f_equal; apply HH|].
      destruct (sim_new c a sp [mkE None None p None] [(p, None)] S eq_refl ltac:(cbn; lia)) as (N1 & N2 & N3 & N4 & N5).
      { intros [|[|i]] e E; cbn in E; try discriminate. injection E as <-. cbn. auto. }
      eexists. split; cbn [heap vals hs its lists svals owner sits].
      + exact N1. + reflexivity.
      + apply pw_app; [exact N2|]. cbn [length] in N4. replace (length (heap c) + 1 - 1) with (length (heap c)) in N4 by lia. exact N4.
      + apply own_app; [exact HO|]. intros s E h. injection E as <-. apply N5.
      + exact N3.
    - (* NewEmpty *) cbn. split; [f_equal; apply HH|]. exists sp. split; auto; cbn [hs owner with_hs].
      + apply pw_app; [exact HH | reflexivity]. + apply own_app; [exact HO | discriminate].
    - (* Copy *) destruct (sim_h c a sp h S) as [[-> ->]|[(x & -> & -> & -> & En)|(x & s & -> & -> & En & R)]]; cbn [obind]; [exact I| |].
      + cbn. split; [f_equal; apply HH|]. exists sp. split; auto; cbn [hs owner with_hs].
        * apply pw_app; [exact HH | reflexivity]. * apply own_app; [exact HO | discriminate].
      + cbn [rel_h] in R. destruct R as (Hs & Hn & Ef & Ec & El). rewrite Ef.
        destruct (nth_error (nth s sp []) 0) as [f|] eqn:E0. 2:{ apply nth_error_None in E0. destruct (nth s sp []); [congruence | cbn in E0; lia]. }
        assert (HOW : existsb (is_owner s) (owner a) = true). { apply existsb_exists. eexists. split; [apply (nth_error_In _ _ En)|]. apply Nat.eqb_refl. }
        assert (HF : length (contents a s) <= length (heap c) + 0).
        { unfold contents. rewrite <- (c_lens _ _ _ HC s). destruct (nth_error (nth s sp []) (length (nth s sp []) - 1)) as [y|] eqn:Ey.
          - pose proof (id_lt _ _ _ _ _ _ HC Ey). lia.
          - apply nth_error_None in Ey. destruct (nth s sp []); [congruence | cbn in Ey |- *; lia]. }
        pose proof (copy_spec c a sp s S HOW (length (heap c)) 0 f (length (heap c)) None (vals c) E0 HF) as P. cbn [skipn] in P. rewrite HV in P |- *.
        destruct (copied (contents a s) (svals a)) as [[cs vs]|e|] eqn:ECP; [|destruct P|rewrite P; exact I].
        destruct P as (es & E & L1 & L0 & H). rewrite E. cbn [obind fst snd]. cbn [simulates]. split; [f_equal; apply HH|].
        destruct (sim_new c a sp es cs S L1 L0 H) as (N1 & N2 & N3 & N4 & N5).
        eexists. split; cbn [heap vals hs its lists svals owner sits].
        * exact N1. * reflexivity.
        * apply pw_app; [exact N2|]. 
          assert (LE : levels x = length es).
          { rewrite El, (c_lens _ _ _ HC s). fold (contents a s). rewrite <- L1. revert ECP. clear. generalize (svals a). generalize (contents a s). intros l.
            revert cs vs. induction l as [|[p r] l IH]; intros cs vs vs0 E; cbn [copied] in E; [injection E as <- <-; reflexivity|].
            destruct (nth_error vs0 p) as [v|]; [|discriminate].
            destruct (match r with Some q => _ | None => _ end) as [[r' vs1]| |]; cbn [obind snd fst] in E; try discriminate.
            destruct (copied l vs1) as [[cs' vs']| |] eqn:E2; cbn [obind snd fst] in E; try discriminate. injection E as <- <-. cbn [length]. f_equal. apply (IH _ _ _ E2). }
          rewrite LE. exact N4.
        * apply own_app; [exact HO|]. intros s' Es' h'. injection Es' as <-. apply N5.
        * exact N3.
    - (* Destroy *) destruct (sim_h c a sp h S) as [[-> ->]|[(x & -> & -> & _)|(x & s & -> & -> & _)]]; cbn [obind]; [exact I| |];
        cbn; (split; [reflexivity|]); exists sp; (split; auto; cbn [hs owner with_hs]); try (apply pw_set; [exact HH | exact I]); (apply own_set; [exact HO | discriminate]).
    - (* AddCoarser *) destruct (sim_h c a sp h S) as [[-> ->]|[(x & -> & -> & -> & En)|(x & s & -> & -> & En & R)]]; cbn [obind]; [exact I| |].
      + cbn [coarsest levels simulates]. split; [reflexivity|]. rewrite HV.
        destruct (sim_new c a sp [mkE None None (length (svals a)) None] [(length (svals a), None)] S eq_refl ltac:(cbn; lia)) as (N1 & N2 & N3 & N4 & N5).
        { intros [|[|i]] e E; cbn in E; try discriminate. injection E as <-. cbn. auto. }
        eexists. split; cbn [heap vals hs its lists svals owner sits].
        * exact N1. * reflexivity.
        * apply pw_set; [exact N2|]. cbn [length] in N4. replace (length (heap c) + 1 - 1) with (length (heap c)) in N4 by lia. exact N4.
        * apply own_set; [exact HO|]. intros s E h'. injection E as <-. apply N5.
        * exact N3.
      + cbn [rel_h] in R. destruct R as (Hs & Hn & Ef & Ec & El). rewrite Ec.
        destruct (nth_error (nth s sp []) (length (nth s sp []) - 1)) as [old|] eqn:Eo.
        2:{ apply nth_error_None in Eo. destruct (nth s sp []); [congruence | cbn in Eo; lia]. }
        destruct (c_at _ _ _ HC _ _ _ Eo) as (_ & eo & Ee & _). rewrite Ee. cbn [simulates]. split; [reflexivity|].
        exists (set_nth sp s (nth s sp [] ++ [length (heap c)])). split; cbn [heap vals hs its lists svals owner sits].
        * rewrite HV. apply core_extend; assumption.
        * rewrite HV. reflexivity.
        * assert (HP : pointwise (fun p q => q = Some (Some s) \/ rel_h (set_nth sp s (nth s sp [] ++ [length (heap c)])) p q) (hs c) (owner a)).
          { apply (pw_impl (rel_h sp)); [|exact HH]. intros p q _ Rq. destruct q as [[s'|]|]; [|right; destruct p; exact Rq|right; destruct p; exact Rq].
            destruct (Nat.eq_dec s' s) as [->|Hne]; [left; reflexivity|right]. destruct p as [hh|]; cbn [rel_h] in *; [|exact Rq].
            rewrite set_nth_length, set_nth_nth by exact Hs. destruct (Nat.eqb_spec s' s); [congruence|]. exact Rq. }
          destruct HP as [P1 P2]. split; [rewrite set_nth_length; exact P1|]. intros i. rewrite set_nth_spec.
          pose proof (nth_error_some_lt _ _ _ En) as Hl. destruct (Nat.ltb_spec h (length (hs c))); [|lia].
          destruct (Nat.eqb_spec i h) as [->|Hne]; cbn [andb].
          -- rewrite En. cbn [rel_h finest coarsest levels]. rewrite set_nth_length, set_nth_nth, Nat.eqb_refl by exact Hs. rewrite app_length. cbn [length].
             split; [exact Hs|]. split; [intros K; apply app_eq_nil in K; destruct K; discriminate|]. split; [|split].
             ++ rewrite Ef. destruct (nth s sp []); [congruence|reflexivity].
             ++ rewrite nth_error_app2 by lia. replace (length (nth s sp []) + 1 - 1 - length (nth s sp [])) with 0 by lia. reflexivity.
             ++ rewrite El. lia.
          -- specialize (P2 i). destruct (nth_error (hs c) i) as [p|], (nth_error (owner a) i) as [q|] eqn:Eq; auto. destruct P2 as [P2|P2]; [|exact P2].
             subst q. destruct (Hne (HO _ _ _ Eq En)).
        * exact HO.
        * apply (pw_impl (rel_it sp)); [|exact HI]. intros [[x'|]|] [[[s' k']|]|] _; cbn [rel_it]; auto. intros R. rewrite set_nth_nth by exact Hs.
          destruct (Nat.eqb_spec s' s) as [->|_]; [|exact R]. rewrite nth_error_app1; [exact R | apply (nth_error_some_lt _ _ _ R)].
    - (* AddRedistributed *) destruct (sim_h c a sp h S) as [[-> ->]|[(x & -> & -> & -> & En)|(x & s & -> & -> & En & R)]]; cbn [obind]; [exact I|exact I|].
      cbn [rel_h] in R. destruct R as (Hs & Hn & Ef & Ec & El). rewrite Ec.
      destruct (nth_error (nth s sp []) (length (nth s sp []) - 1)) as [old|] eqn:Eo.
      2:{ apply nth_error_None in Eo. destruct (nth s sp []); [congruence | cbn in Eo; lia]. }
      destruct (c_at _ _ _ HC _ _ _ Eo) as (_ & eo & Ee & _ & _ & Ec2). cbn [get_elem]. rewrite Ee. cbn [obind]. unfold s_set. cbn [simulates]. split; [reflexivity|]. exists sp.
      rewrite HV. unfold contents at 2 3. rewrite <- (c_lens _ _ _ HC s), (nth_error_nth _ _ _ Ec2). cbn [fst]. apply sim_red; assumption.
    - (* Levels *) destruct (sim_h c a sp h S) as [[-> ->]|[(x & -> & -> & -> & En)|(x & s & -> & -> & En & R)]]; cbn [obind]; [exact I|cbn; eauto|].
      cbn [rel_h] in R. destruct R as (Hs & Hn & Ef & Ec & El). cbn [simulates]. split; [|eauto]. rewrite El. unfold contents. rewrite (c_lens _ _ _ HC s). reflexivity.
    - (* Finest *) destruct (sim_h c a sp h S) as [[-> ->]|[(x & -> & -> & -> & En)|(x & s & -> & -> & En & R)]]; cbn [obind]; [exact I| |];
        unfold new_it, s_new_it; cbn [simulates]; (split; [f_equal; apply HI|]); exists sp; apply sim_its; auto; (apply pw_app; [exact HI|]); [exact I|].
      cbn [rel_h] in R. destruct R as (Hs & Hn & Ef & Ec & El). rewrite Ef. cbn [rel_it]. destruct (nth s sp []); [congruence|]. reflexivity.
    - (* Coarsest *) destruct (sim_h c a sp h S) as [[-> ->]|[(x & -> & -> & -> & En)|(x & s & -> & -> & En & R)]]; cbn [obind]; [exact I| |];
        unfold new_it, s_new_it; cbn [simulates]; (split; [f_equal; apply HI|]); exists sp; apply sim_its; auto; (apply pw_app; [exact HI|]); [exact I|].
      cbn [rel_h] in R. destruct R as (Hs & Hn & Ef & Ec & El). rewrite Ec. unfold contents. rewrite <- (c_lens _ _ _ HC s). cbn [rel_it].
      destruct (nth_error (nth s sp []) (length (nth s sp []) - 1)) as [y|] eqn:Ey; [reflexivity|]. apply nth_error_None in Ey. destruct (nth s sp []); [congruence | cbn in Ey; lia].
    - (* CopyIt *) destruct (sim_it c a sp i S) as [[-> ->]|[[-> ->]|(x & s & k & -> & -> & E3)]]; cbn [obind]; [exact I| |];
        unfold new_it, s_new_it; cbn [simulates]; (split; [f_equal; apply HI|]); exists sp; (apply sim_its; [exact S|]); (apply pw_app; [exact HI | first [exact I | exact E3]]).
    - (* DropIt *) destruct (sim_it c a sp i S) as [[-> ->]|[[-> ->]|(x & s & k & -> & -> & E3)]]; cbn [obind]; [exact I| |];
        cbn [simulates]; (split; [reflexivity|]); exists sp; (apply sim_its; [exact S|]); (apply pw_set; [exact HI | exact I]).
    - (* Increment *) rewrite obind_assoc. destruct (sim_pos c a sp i S) as [[-> ->]|(x & e & s & k & _ & Ee & -> & -> & E1 & E2 & E3)]; cbn [obind]; [exact I|].
      unfold set_it, s_set_it. cbn [simulates]. split; [reflexivity|]. exists sp. apply sim_its; auto. apply pw_set; auto. rewrite E3.
      unfold contents. rewrite <- (c_lens _ _ _ HC s). destruct (nth_error (nth s sp []) (Datatypes.S k)) as [y|] eqn:Ey; cbn [lock].
      + pose proof (nth_error_some_lt _ _ _ Ey) as Hl. destruct (Nat.ltb_spec (Datatypes.S k) (length (nth s sp []))); [|lia]. cbn [andb].
        rewrite (alive_spec c a sp s (Datatypes.S k) y S Ey). destruct (exists_level a s (Datatypes.S k)); [exact Ey | exact I].
      + apply nth_error_None in Ey. destruct (Nat.ltb_spec (Datatypes.S k) (length (nth s sp []))); [lia|]. exact I.
    - (* Decrement *) rewrite obind_assoc. destruct (sim_pos c a sp i S) as [[-> ->]|(x & e & s & k & _ & Ee & -> & -> & E1 & E2 & E3)]; cbn [obind]; [exact I|].
      unfold set_it, s_set_it. cbn [simulates]. split; [reflexivity|]. exists sp. apply sim_its; auto. apply pw_set; auto. rewrite E2.
      destruct k as [|j]; [exact I|]. destruct (nth_error (nth s sp []) j) as [y|] eqn:Ey; [exact Ey|]. apply nth_error_None in Ey. apply nth_error_some_lt in E1. lia.
    - (* Equal *) destruct (sim_it c a sp i S) as [[-> ->]|[[-> ->]|(x & s & k & -> & -> & E3)]]; cbn [obind]; [exact I| |];
        (destruct (sim_it c a sp j S) as [[-> ->]|[[-> ->]|(x' & s' & k' & -> & -> & E3')]]; cbn [obind]; [exact I| |]); cbn [simulates]; (split; [|eauto]); try reflexivity.
      f_equal. destruct (Nat.eqb_spec x x') as [->|Hne].
      + destruct (c_inj _ _ _ HC _ _ _ _ _ E3 E3') as [-> ->]. rewrite !Nat.eqb_refl. reflexivity.
      + destruct (Nat.eqb_spec s s') as [->|]; [|reflexivity]. destruct (Nat.eqb_spec k k') as [->|]; [|reflexivity]. congruence.
    - (* IsNull *) destruct (sim_it c a sp i S) as [[-> ->]|[[-> ->]|(x & s & k & -> & -> & E3)]]; cbn [obind simulates]; eauto.
    - (* Read *) rewrite obind_assoc. destruct (sim_pos c a sp i S) as [[-> ->]|(x & e & s & k & _ & Ee & -> & -> & E1 & E2 & E3)]; cbn [obind fst]; [exact I|]. apply sim_read, S.
    - (* Write *) rewrite obind_assoc. destruct (sim_pos c a sp i S) as [[-> ->]|(x & e & s & k & _ & Ee & -> & -> & E1 & E2 & E3)]; cbn [obind fst]; [exact I|]. apply sim_write, S.
    - (* IsRedistributed *) rewrite obind_assoc. destruct (sim_pos c a sp i S) as [[-> ->]|(x & e & s & k & _ & Ee & -> & -> & E1 & E2 & E3)]; cbn [obind snd simulates]; eauto.
    - (* ReadRedistributed *) rewrite obind_assoc. destruct (sim_pos c a sp i S) as [[-> ->]|(x & e & s & k & _ & Ee & -> & -> & E1 & E2 & E3)]; cbn [obind snd]; [exact I|].
      destruct (red e); [apply sim_read, S | exact I].
    - (* WriteRedistributed *) rewrite obind_assoc. destruct (sim_pos c a sp i S) as [[-> ->]|(x & e & s & k & _ & Ee & -> & -> & E1 & E2 & E3)]; cbn [obind snd]; [exact I|].
      destruct (red e); [apply sim_write, S | exact I].
    - (* SetRedistributed *) rewrite obind_assoc. destruct (sim_pos c a sp i S) as [[-> ->]|(x & e & s & k & _ & Ee & -> & -> & E1 & E2 & E3)]; cbn [obind fst]; [exact I|].
      rewrite HV. destruct (nth_error (svals a) p); [|exact I]. unfold s_set. cbn [simulates]. split; [reflexivity|]. exists sp. unfold with_heap. rewrite HV. apply sim_red; assumption.
    - (* DeleteRedistributed *) rewrite obind_assoc. destruct (sim_pos c a sp i S) as [[-> ->]|(x & e & s & k & _ & Ee & -> & -> & E1 & E2 & E3)]; cbn [obind fst]; [exact I|].
      unfold s_set. cbn [simulates]. split; [reflexivity|]. exists sp. unfold with_heap. rewrite HV. apply sim_red; assumption.
  Qed.

  Definition ok_obs (o : outcome obs) : Prop := match o with Ok _ => True | _ => False end.
  (** For every history of calls the observations are those of the lists. *)
  Theorem C60_refines ops : run init ops = spec_run spec_init ops.
  Proof.
    assert (S0 : sim init spec_init []).
    { split; cbn; auto.
      - split.
        + reflexivity.
        + intros [|s]; reflexivity.
        + intros [|s] [|k] x E; discriminate.
        + intros [|s] [|k] s' k' x E; discriminate.
      - split; [reflexivity|]. intros [|i]; cbn; auto.
      - intros [|h] h' s E; discriminate.
      - split; [reflexivity|]. intros [|i]; cbn; auto. }
    revert S0. generalize init, spec_init, (@nil (list nat)). induction ops as [|o ops IH]; intros c a sp S; [reflexivity|].
    cbn [run spec_run]. pose proof (sim_step c a sp o S) as P. unfold simulates in P.
    destruct (step c o) as [[c' b]|e|], (spec_step a o) as [[a' b']|e'|]; try contradiction; [|reflexivity].
    destruct P as [-> [sp' S']]. f_equal. apply (IH c' a' sp' S').
  Qed.

  (** ** What the copy constructor gives *)
  Fixpoint spec_end (a : spec) (ops : list op) : outcome spec :=
    match ops with [] => Ok a | o :: t => obind (spec_step a o) (fun r => spec_end (fst r) t) end.
  Definition valid (a : spec) : Prop :=
    forall s p r, In (p, r) (contents a s) -> p < length (svals a) /\ forall q, r = Some q -> q < length (svals a).
  Lemma copied_spec l : forall vs, (forall p r, In (p, r) l -> p < length vs /\ forall q, r = Some q -> q < length vs) ->
    exists cs vs', copied l vs = Ok (cs, vs ++ vs') /\ length cs = length l /\
      (forall p r, In (p, r) cs -> length vs <= p < length (vs ++ vs') /\ forall q, r = Some q -> length vs <= q < length (vs ++ vs')) /\
      NoDup (flat_map (fun c => fst c :: match snd c with Some q => [q] | None => [] end) cs) /\
      forall k p r, nth_error l k = Some (p, r) -> exists p' r', nth_error cs k = Some (p', r') /\ nth_error (vs ++ vs') p' = nth_error vs p /\
        match r, r' with None, None => True | Some q, Some q' => nth_error (vs ++ vs') q' = nth_error vs q | _, _ => False end.
  Proof.
    induction l as [|[p r] l IH]; intros vs H.
    - exists [], []. rewrite app_nil_r. cbn [copied]. split; [reflexivity|]. split; [reflexivity|]. split; [intros p r []|]. split; [constructor|]. intros [|k] p r E; discriminate.
    - destruct (H p r (or_introl eq_refl)) as [Hp Hr]. cbn [copied].
      destruct (nth_error vs p) as [v|] eqn:Ev; [|apply nth_error_None in Ev; lia].
      assert (EX : exists r' w, match r with Some q => match nth_error (vs ++ [v]) q with Some w => Ok (Some (length (vs ++ [v])), (vs ++ [v]) ++ [w]) | None => UB end | None => Ok (None, vs ++ [v]) end
                   = Ok (r', vs ++ v :: w) /\ match r, r' with None, None => w = [] | Some q, Some q' => q' = S (length vs) /\ exists x, w = [x] /\ nth_error vs q = Some x | _, _ => False end).
      { destruct r as [q|]; [|exists None, []; auto]. specialize (Hr q eq_refl). rewrite nth_error_app1 by exact Hr.
        destruct (nth_error vs q) as [x|] eqn:Ex; [|apply nth_error_None in Ex; lia]. exists (Some (length (vs ++ [v]))), [x]. rewrite <- app_assoc. split; [reflexivity|].
        rewrite app_length. cbn [length]. split; [lia|]. eauto. }
      destruct EX as (r' & w & E & HW). rewrite E. cbn [obind fst snd].
      destruct (IH (vs ++ v :: w)) as (cs & vs' & E2 & L & F & ND & V).
      { intros p0 r0 HI0. destruct (H p0 r0 (or_intror HI0)) as [H1 H2]. rewrite app_length. split; [lia|]. intros q Eq. specialize (H2 q Eq). lia. }
      rewrite E2. cbn [obind fst snd]. exists ((length vs, r') :: cs), (v :: w ++ vs'). rewrite <- app_assoc in *. cbn [app] in *.
      split; [reflexivity|]. split; [cbn [length]; lia|].
      assert (LW : match r' with Some q => q = S (length vs) /\ length w = 1 | None => w = [] end).
      { destruct r, r'; try contradiction; [|exact HW]. destruct HW as (H1 & x & -> & _). auto. }
      repeat rewrite app_length in *. cbn [length] in *. repeat rewrite app_length in *. split; [|split].
      + intros p0 r0 [E0|HI0].
        * injection E0 as <- <-. split; [lia|]. intros q Eq. subst r'. destruct LW. lia.
        * destruct (F p0 r0 HI0) as [F1 F2]. split; [lia|]. intros q Eq. specialize (F2 q Eq). lia.
      + cbn [flat_map fst snd app].
        assert (FR : forall x, In x (flat_map (fun c => fst c :: match snd c with Some q => [q] | None => [] end) cs) -> length vs + S (length w) <= x).
        { intros x HX. apply in_flat_map in HX. destruct HX as ([p0 r0] & HI0 & HX). destruct (F p0 r0 HI0) as [F1 F2]. cbn [fst snd] in HX.
          destruct HX as [<-|HX]; [lia|]. destruct r0 as [q|]; [|destruct HX]. destruct HX as [<-|[]]. specialize (F2 q eq_refl). lia. }
        destruct r' as [q|]; cbn [app].
        * destruct LW as [-> LW]. constructor; [intros [K|K]; [lia|apply FR in K; lia]|]. constructor; [intros K; apply FR in K; lia | exact ND].
        * constructor; [intros K; apply FR in K; lia | exact ND].
      + intros k p0 r0 HK. destruct k as [|k]; cbn [nth_error] in HK |- *.
        * injection HK as <- <-. exists (length vs), r'. split; [reflexivity|]. rewrite nth_error_app2, Nat.sub_diag by lia. split; [cbn; congruence|].
          destruct r as [q|], r' as [q'|]; try contradiction; [|exact I]. destruct HW as (-> & x & -> & Ex). rewrite nth_error_app2 by lia. replace (S (length vs) - length vs) with 1 by lia. cbn. congruence.
        * destruct (H p0 r0 (or_intror (nth_error_In _ _ HK))) as [H1 H2].
          destruct (V k p0 r0 HK) as (p1 & r1 & V1 & V2 & V3). exists p1, r1. split; [exact V1|]. rewrite V2. split; [apply nth_error_app1; exact H1|].
          destruct r0 as [q|], r1 as [q1|]; try contradiction; [|exact I]. rewrite V3. apply nth_error_app1. apply H2. reflexivity.
  Qed.
  Lemma contents_app a l vs o i s : contents (mkSp (lists a ++ [l]) vs o i) s = if s =? length (lists a) then l else contents a s.
  Proof. unfold contents. cbn [lists]. apply nth_app_new. Qed.
  Lemma contents_set a t l vs o i s : contents (mkSp (set_nth (lists a) t l) vs o i) s = l \/ contents (mkSp (set_nth (lists a) t l) vs o i) s = contents a s.
  Proof.
    unfold contents. cbn [lists]. destruct (Nat.lt_ge_cases t (length (lists a))) as [H|H].
    - rewrite set_nth_nth by exact H. destruct (s =? t); auto.
    - right. f_equal. unfold set_nth. rewrite skipn_all2, firstn_all2, app_nil_r by exact H. reflexivity.
  Qed.
  Lemma in_set_nth {A} (l : list A) k x y : In y (set_nth l k x) -> y = x \/ In y l.
  Proof.
    intros H. apply In_nth_error in H. destruct H as [i H]. rewrite set_nth_spec in H. destruct ((i =? k) && _); [left; congruence | right; apply (nth_error_In _ _ H)].
  Qed.

  Lemma valid_more a (vs : list T) : valid a -> (length (svals a) <= length vs) -> forall s p r, In (p, r) (contents a s) -> p < length vs /\ forall q, r = Some q -> q < length vs.
  Proof. intros V H s p r HI. destruct (V s p r HI) as [V1 V2]. split; [lia|]. intros q E. specialize (V2 q E). lia. Qed.
  Lemma valid_set a s k p r (vs : list T) : valid a -> length (svals a) <= length vs -> p < length vs -> (forall q, r = Some q -> q < length vs) ->
    valid (mkSp (set_nth (lists a) s (set_nth (contents a s) k (p, r))) vs (owner a) (sits a)).
  Proof.
    intros V HL Hp Hr t p0 r0 HI. cbn [svals].
    destruct (contents_set a s (set_nth (contents a s) k (p, r)) vs (owner a) (sits a) t) as [E|E]; rewrite E in HI.
    - apply in_set_nth in HI. destruct HI as [HI|HI]; [injection HI as -> ->; auto | apply (valid_more a vs V HL s _ _ HI)].
    - apply (valid_more a vs V HL t _ _ HI).
  Qed.
  Lemma valid_step a o a' b : valid a -> spec_step a o = Ok (a', b) -> valid a'.
  Proof.
    intros V E. destruct o; cbn [spec_step] in E; unfold s_read, s_write, s_new_it, s_set_it, s_set in E;
      repeat match type of E with
        | obind ?x _ = Ok _ => destruct x as [?y| |] eqn:?F; cbn [obind] in E; try discriminate
        | (match ?x with _ => _ end) = Ok _ => destruct x eqn:?F; try discriminate
        end; try (injection E as <- <-; exact V).
    - injection E as <- <-. intros s p r. cbn [svals]. apply (valid_more a (svals a ++ [v]) V). rewrite app_length. lia.
    - injection E as <- <-. intros s q r. cbn [svals]. apply (valid_more a (set_nth (svals a) p v) V). rewrite set_nth_length. lia.
    - injection E as <- <-. intros s q r. rewrite contents_app. cbn [svals]. destruct (s =? length (lists a)); [|apply V].
      intros [K|[]]. injection K as <- <-. split; [apply (nth_error_some_lt _ _ _ F) | discriminate].
    - injection E as <- <-. destruct (copied_spec (contents a n) (svals a) (V n)) as (cs & vs' & E2 & _ & Fr & _). rewrite E2 in F1. injection F1 as <-. cbn [fst snd].
      intros s q r. rewrite contents_app. cbn [svals]. destruct (s =? length (lists a)).
      + intros HI. destruct (Fr q r HI) as [G1 G2]. split; [lia|]. intros x Ex. specialize (G2 x Ex). lia.
      + apply (valid_more a (svals a ++ vs') V). rewrite app_length. lia.
    - injection E as <- <-. intros s q r HI. cbn [svals]. destruct (contents_set a n (contents a n ++ [(length (svals a), None)]) (svals a ++ [v]) (owner a) (sits a) s) as [EC|EC]; rewrite EC in HI.
      + apply in_app_iff in HI. destruct HI as [HI|[K|[]]].
        * apply (valid_more a (svals a ++ [v]) V ltac:(rewrite app_length; lia) n _ _ HI).
        * injection K as <- <-. rewrite app_length. cbn. split; [lia | discriminate].
      + apply (valid_more a (svals a ++ [v]) V ltac:(rewrite app_length; lia) s _ _ HI).
    - injection E as <- <-. intros s q r. rewrite contents_app. cbn [svals]. destruct (s =? length (lists a)).
      + intros [K|[]]. injection K as <- <-. rewrite app_length. cbn. split; [lia | discriminate].
      + apply (valid_more a (svals a ++ [v]) V). rewrite app_length. lia.
    - injection E as <- <-. apply valid_set; [exact V | rewrite app_length; lia | | intros q Eq; injection Eq as <-; rewrite app_length; cbn; lia].
      destruct (contents a n) as [|c0 l] eqn:EC; [rewrite app_length; cbn; lia|].
      destruct (nth (length (c0 :: l) - 1) (c0 :: l) (0, None)) as [p0 r0] eqn:EN.
      assert (HI : In (p0, r0) (contents a n)). { rewrite EC, <- EN. apply nth_In. cbn. lia. }
      destruct (V n p0 r0 HI). rewrite app_length. cbn [fst]. lia.
    - injection E as <- <-. intros s q r. cbn [svals]. apply (valid_more a (set_nth (svals a) (fst p0) v) V). rewrite set_nth_length. lia.
    - injection E as <- <-. intros s q r. cbn [svals]. apply (valid_more a (set_nth (svals a) n1 v) V). rewrite set_nth_length. lia.
    - injection E as <- <-. destruct p1 as [p1 r1]. apply valid_set; [exact V | lia | | intros q Eq; injection Eq as <-; apply (nth_error_some_lt _ _ _ F2)].
      unfold s_pos in F. destruct (s_it a i) as [[[s k]|]| |]; cbn [obind] in F; try discriminate. destruct (nth_error (contents a s) k) as [c|] eqn:Ec; [|discriminate].
      injection F as -> -> ->. destruct (V n p1 r1 (nth_error_In _ _ Ec)). cbn [fst]. assumption.
    - injection E as <- <-. destruct p0 as [p1 r1]. apply valid_set; [exact V | lia | | discriminate].
      unfold s_pos in F. destruct (s_it a i) as [[[s k]|]| |]; cbn [obind] in F; try discriminate. destruct (nth_error (contents a s) k) as [c|] eqn:Ec; [|discriminate].
      injection F as -> -> ->. destruct (V n p1 r1 (nth_error_In _ _ Ec)). cbn [fst]. assumption.
  Qed.
  (** In every reachable state a copy succeeds and has the same levels; all its values are new objects with the same values *)
  Theorem C60_copy ops a h s : spec_end spec_init ops = Ok a -> nth_error (owner a) h = Some (Some (Some s)) ->
    exists cs vs a', spec_step a (Copy h) = Ok (a', OHandle (length (owner a))) /\
      lists a' = lists a ++ [cs] /\ owner a' = owner a ++ [Some (Some (length (lists a)))] /\ sits a' = sits a /\ svals a' = svals a ++ vs /\
      length cs = length (contents a s) /\
      (forall p r, In (p, r) cs -> length (svals a) <= p /\ forall q, r = Some q -> length (svals a) <= q) /\
      NoDup (flat_map (fun c => fst c :: match snd c with Some q => [q] | None => [] end) cs) /\
      forall k p r, nth_error (contents a s) k = Some (p, r) -> exists p' r', nth_error cs k = Some (p', r') /\
        nth_error (svals a') p' = nth_error (svals a) p /\
        match r, r' with None, None => True | Some q, Some q' => nth_error (svals a') q' = nth_error (svals a) q | _, _ => False end.
  Proof.
    intros E HO.
    assert (V : valid a).
    { assert (G : forall ops a0, valid a0 -> spec_end a0 ops = Ok a -> valid a).
      { clear. induction ops as [|o ops IH]; intros a0 V E; cbn [spec_end] in E; [injection E as <-; exact V|].
        destruct (spec_step a0 o) as [[a1 b]| |] eqn:E1; cbn [obind fst] in E; try discriminate. apply (IH a1); [apply (valid_step a0 o a1 b V E1) | exact E]. }
      apply (G ops spec_init); [|exact E]. intros [|t] p r HI; destruct HI. }
    destruct (copied_spec (contents a s) (svals a) (V s)) as (cs & vs & EC & L & F & ND & P). exists cs, vs. cbn [spec_step]. unfold s_h. rewrite HO. cbn [obind]. rewrite EC. cbn [obind fst snd].
    eexists. split; [reflexivity|]. cbn [lists owner sits svals]. repeat (split; [solve [auto]|]). split; [|split; [exact ND | exact P]].
    intros p r HI. destruct (F p r HI) as [F1 F2]. split; [lia|]. intros q Eq. specialize (F2 q Eq). lia.
  Qed.
End Hierarchy.

(** ** Deviation: the implicitly declared copy assignment is not deep *)
(** It copies the shared pointers and the number of levels *)
Definition assign {T} (st : state T) (h g : nat) : state T :=
  match nth_error (hs T st) g with Some x => with_hs T st (set_nth (hs T st) h x) | None => st end.
(** After h = g, adding a level to h is visible in g (its traversal from the finest level finds two levels), while g.levels() is 1 and
    g.coarsest() is the finest level. *)
Theorem C60_assign_refuted : exists st st1 : state nat,
  run nat (init nat) [MakeValue nat 7; New nat 0; NewEmpty nat] = [Ok (OHandle nat 0); Ok (OHandle nat 0); Ok (OHandle nat 1)] /\
  (exists st0, step nat (init nat) (MakeValue nat 7) = Ok (st0, OHandle nat 0) /\ exists st1, step nat st0 (New nat 0) = Ok (st1, OHandle nat 0) /\
     step nat st1 (NewEmpty nat) = Ok (st, OHandle nat 1)) /\
  step nat (assign st 1 0) (AddCoarser nat 1 8) = Ok (st1, ODone nat) /\
  run nat st1 [Levels nat 0; Finest nat 0; Coarsest nat 0; Equal nat 0 1; Increment nat 0; Read nat 0]
    = [Ok (ONat nat 1); Ok (OHandle nat 0); Ok (OHandle nat 1); Ok (OBool nat true); Ok (ODone nat); Ok (OValue nat 8)].
Proof. eexists. eexists. split; [reflexivity|]. split; [eexists; split; [reflexivity|]; eexists; split; reflexivity|]. split; reflexivity. Qed.

(** ** Example: three levels, a copy, writes to the copy, and an iterator that outlives its hierarchy *)
Example C60_nonvacuous :
  run nat (init nat) [MakeValue nat 1; New nat 0; AddCoarser nat 0 2; AddRedistributed nat 0 20; AddCoarser nat 0 3; Levels nat 0; Copy nat 0; Levels nat 1;
                      Finest nat 1; Increment nat 0; Write nat 0 9; ReadRedistributed nat 0; Finest nat 0; Increment nat 1; Read nat 1;
                      Destroy nat 0; Read nat 1; Increment nat 1; IsNull nat 1; Increment nat 0; Read nat 0; Coarsest nat 1; Equal nat 0 2; Decrement nat 2; Read nat 2]
  = [Ok (OHandle nat 0); Ok (OHandle nat 0); Ok (ODone nat); Ok (ODone nat); Ok (ODone nat); Ok (ONat nat 3); Ok (OHandle nat 1); Ok (ONat nat 3);
     Ok (OHandle nat 0); Ok (ODone nat); Ok (ODone nat); Ok (OValue nat 20); Ok (OHandle nat 1); Ok (ODone nat); Ok (OValue nat 2);
     Ok (ODone nat); Ok (OValue nat 2); Ok (ODone nat); Ok (OBool nat true); Ok (ODone nat); Ok (OValue nat 3); Ok (OHandle nat 2); Ok (OBool nat true); Ok (ODone nat); Ok (OValue nat 9)].
Proof. reflexivity. Qed.
