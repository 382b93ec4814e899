(** * The CHOLMOD wrapper (C63): dune/istl/cholmod.hh

    The wrapper flattens a blocked symmetric matrix into CHOLMOD's compressed column arrays, leaving out ignored degrees of
    freedom, and maps blocked right hand sides and solutions to and from the numbering of the reduced system.  CHOLMOD itself is
    not modelled: [csolve] is any function, and the theorems assume only that it solves the symmetric system that the arrays
    describe ([solves]).  Scalars range over any ring; index types are unbounded. *)
From Coq Require Import Arith List Lia Bool Sorted Permutation.
From Verif Require Import Outcome Ring Sums Sparse Foreach.
Import ListNotations.
Open Scope nat_scope.

Section Cholmod.
  Context {R : ring}.
  Local Open Scope ring_scope_istl.

  (** a cholmod_sparse with stype = -1, packed and sorted (cholmod.hh:372-382): N columns, column starts p, row indices i and values x;
      i and x are not initialised by cholmod_allocate_sparse, p is all zero (CHOLMOD documents the returned matrix to be all zero) *)
  Record csc := Csc { cN : nat; cp : list nat; ci : list (option nat); cx : list (option R) }.
  (** the members of Cholmod (cholmod.hh:517-524); L_ is the factorisation of the arrays it was given; [leaked] counts factor
      objects that were allocated and are neither referenced by L_ nor released.  An entry of subIndices_ equal to
      numeric_limits<size_t>::max() is None *)
  Record state := St { factor : option csc; leaked : nat; nIsZero : bool; subIndices : list (option nat) }.
  (** Cholmod(), cholmod.hh:227-230 *)
  Definition init : state := St None 0 false nil.

  (** the test at the top of both functors, cholmod.hh:413-419 and 439-445: is the entry copied? *)
  Definition visited (ign : option (list bool)) (r c : nat) : outcome bool :=
    match ign with
    | None => Ok (r <=? c)
    | Some f => match nth_error f r with
                | None => UB
                | Some true => Ok false
                | Some false => match nth_error f c with None => UB | Some true => Ok false | Some false => Ok (r <=? c) end
                end
    end.
  (** ignore ? subIndices_[i] : i, cholmod.hh:422, 448, 449; (using max() as an index is out of bounds) *)
  Definition reduced (ign : option (list bool)) (sub : list (option nat)) (i : nat) : outcome nat :=
    match ign with None => Ok i | Some _ => match nth_error sub i with Some (Some k) => Ok k | _ => UB end end.
  (** counting the entries of every row, cholmod.hh:411-425 *)
  Fixpoint countLoop (ign : option (list bool)) (sub : list (option nat)) (calls : list (R * nat * nat)) (ap : list nat) : outcome (list nat) :=
    match calls with
    | nil => Ok ap
    | (_, r, c) :: t =>
        obind (visited ign r c) (fun v => if v then obind (reduced ign sub r) (fun k =>
          if S k <? length ap then countLoop ign sub t (upd ap (S k) (S (nth (S k) ap 0))) else UB) else countLoop ign sub t ap)
    end.
  (** for i in [0,n): Ap[i+1] += Ap[i], cholmod.hh:428-432 *)
  Fixpoint accumulate (i n : nat) (ap : list nat) : list nat :=
    match n with 0 => ap | S n' => accumulate (S i) n' (upd ap (S i) (nth (S i) ap 0 + nth i ap 0)%nat) end.
  (** writing the entries, cholmod.hh:435-456 *)
  Fixpoint fillLoop (ign : option (list bool)) (sub : list (option nat)) (ap : list nat) (calls : list (R * nat * nat)) (rowPos : list nat) (ai : list (option nat)) (ax : list (option R))
    : outcome (list (option nat) * list (option R)) :=
    match calls with
    | nil => Ok (ai, ax)
    | (a, r, c) :: t =>
        obind (visited ign r c) (fun v => if v then obind (reduced ign sub r) (fun k => obind (reduced ign sub c) (fun l =>
          if (k <? length rowPos) && (nth k ap 0 + nth k rowPos 0 <? length ai)%nat
          then let q := (nth k ap 0 + nth k rowPos 0)%nat in fillLoop ign sub ap t (upd rowPos k (S (nth k rowPos 0))) (upd ai q (Some l)) (upd ax q (Some a))
          else UB)) else fillLoop ign sub ap t rowPos ai ax)
    end.
  (** std::vector::resize(n, v): shrinks, or appends copies of v; the entries that stay keep their values *)
  Definition resize {X} (n : nat) (v : X) (l : list X) : list X := firstn n l ++ repeat v (n - length l)%nat.
  (** the loop numbering the dofs that are not ignored, cholmod.hh:398-405 *)
  Fixpoint numberLoop (f : list bool) (i n counter : nat) (sub : list (option nat)) : outcome (list (option nat)) :=
    match n with
    | 0 => Ok sub
    | S n' => match nth_error f i with
              | None => UB
              | Some true => numberLoop f (S i) n' counter sub
              | Some false => numberLoop f (S i) n' (S counter) (upd sub i (Some counter))
              end
    end.
  (** setMatrix(matrix, ignore), cholmod.hh:334-463; the pointer may be null (None), which is also what setMatrix(matrix), 309-314, passes *)
  Definition setMatrix (st : state) (t : @mtree R) (ignore : option (@vtree bool)) : outcome state :=
    obind (fmfe t 0 0) (fun x => let '(calls, (flatRows, _)) := x in
    let nonZeros := length (filter (fun e => snd (fst e) <=? snd e) calls) in
    let ign := match ignore with None => None | Some v => Some (map fst (fst (fvfe v 0))) end in
    let ignored := match ign with None => 0 | Some f => length (filter (fun b => b) f) end in
    if flatRows <=? ignored then Ok (St (factor st) (leaked st) true (subIndices st)) else
    let N := (flatRows - ignored)%nat in
    obind (match ign with None => Ok (subIndices st) | Some f => numberLoop f 0 flatRows 0 (resize flatRows None (subIndices st)) end) (fun sub =>
    obind (countLoop ign sub calls (repeat 0 (S N))) (fun ap =>
    let ap := accumulate 0 N (upd ap 0 0) in
    obind (fillLoop ign sub ap calls (repeat 0 N) (repeat None nonZeros) (repeat None nonZeros)) (fun aa =>
    Ok (St (Some (Csc N ap (fst aa) (snd aa))) (match factor st with None => leaked st | Some _ => S (leaked st) end) false sub))))).
  (** ~Cholmod(), cholmod.hh:237-242: the number of factor objects that are never released *)
  Definition destroy (st : state) : nat := leaked st.

  (** size() of the outermost container *)
  Definition vsize {X} (v : @vtree X) : nat := match v with VScalar _ => 1 | VNode l => length l end.
  (** copying b, cholmod.hh:270-276 *)
  Fixpoint copyIn (sub : list (option nat)) (calls : list (R * nat)) (bp : list R) : outcome (list R) :=
    match calls with
    | nil => Ok bp
    | (a, i) :: t =>
        if length sub =? 0 then (if i <? length bp then copyIn sub t (upd bp i a) else UB)
        else match nth_error sub i with
             | None => UB
             | Some None => copyIn sub t bp
             | Some (Some k) => if k <? length bp then copyIn sub t (upd bp k a) else UB
             end
    end.
  (** copying the solution, cholmod.hh:291-297: the new values of the entries of x, in order *)
  Fixpoint copyOut (sub : list (option nat)) (xp : list R) (calls : list (R * nat)) : outcome (list R) :=
    match calls with
    | nil => Ok nil
    | (a, i) :: t =>
        obind (if length sub =? 0 then match nth_error xp i with None => UB | Some v => Ok v end
               else match nth_error sub i with
                    | None => UB
                    | Some None => Ok a
                    | Some (Some k) => match nth_error xp k with None => UB | Some v => Ok v end
                    end) (fun v => obind (copyOut sub xp t) (fun l => Ok (v :: l)))
    end.
  (** the container with its scalar entries replaced, left to right *)
  Fixpoint rebuild {X} (v : @vtree X) (l : list X) : @vtree X * list X :=
    match v with
    | VScalar a => match l with nil => (VScalar a, nil) | y :: t => (VScalar y, t) end
    | VNode c => let '(c', l') := (fix go (c : list vtree) (l : list X) := match c with nil => (nil, l) | x :: t => let '(x', l1) := rebuild x l in let '(t', l2) := go t l1 in (x' :: t', l2) end) c l in (VNode c', l')
    end.
  (** apply(x, b, res), cholmod.hh:257-302; res is (iterations, converged); the result is x and res, b is only read;
      (the Dune::Exception thrown for different sizes is rendered as EISTL) *)
  Definition apply (csolve : csc -> list R -> list R) (st : state) (x b : @vtree R) (res : nat * bool) : outcome (@vtree R * (nat * bool)) :=
    if nIsZero st then Ok (x, res) else
    if negb (vsize x =? vsize b) then Throw EISTL else
    match factor st with
    | None => UB
    | Some M =>
        obind (copyIn (subIndices st) (fst (fvfe b 0)) (repeat r0 (cN M))) (fun b2 =>
        obind (copyOut (subIndices st) (csolve M b2) (fst (fvfe x 0))) (fun l => Ok (fst (rebuild x l), (1, true))))
    end.

  (** ** Specification *)
  (** what a matrix with stype = -1 means to CHOLMOD: column k holds the entries (row, value) at the positions p[k], ..., p[k+1]-1,
      only the lower triangle is stored, the matrix is symmetric *)
  Definition column (M : csc) (k : nat) : list (nat * R) :=
    flat_map (fun q => match nth q (ci M) None, nth q (cx M) None with Some i, Some a => [(i, a)] | _, _ => nil end) (seq (nth k (cp M) 0) (nth (S k) (cp M) 0 - nth k (cp M) 0)%nat).
  Definition meaning (M : csc) (i j : nat) : R := denrow (column M (Nat.min i j)) (Nat.max i j).
  (** the arrays are a legal input: starts from 0 to at most the allocated size, increasing; every position of a column is initialised;
      row indices strictly increasing, within the matrix and not above the diagonal *)
  Definition legal (M : csc) : Prop :=
    length (cp M) = S (cN M) /\ nth 0 (cp M) 0 = 0 /\ nth (cN M) (cp M) 0 <= length (ci M) /\ length (cx M) = length (ci M) /\
    forall k, k < cN M -> nth k (cp M) 0 <= nth (S k) (cp M) 0 /\ length (column M k) = (nth (S k) (cp M) 0 - nth k (cp M) 0)%nat /\ row_wf (cN M) (column M k) /\ Forall (fun i => k <= i) (map fst (column M k)).
  (** csolve solves the system described by M *)
  Definition solves (csolve : csc -> list R -> list R) (M : csc) : Prop :=
    forall b, length b = cN M -> length (csolve M b) = cN M /\ forall i, i < cN M -> sum (cN M) (fun j => meaning M i j * vget (csolve M b) j) = vget b i.
  (** the n x n matrix A is the dense matrix behind t: stored entries have their value, the others are zero *)
  Definition dense (t : @mtree R) (n : nat) (A : nat -> nat -> R) : Prop := forall r c, r < n -> c < n -> At t r c (A r c) \/ (A r c = r0 /\ forall a, ~ At t r c a).
  (** in every sparse matrix of the nest the column indices of a row are increasing *)
  Inductive ordered : @mtree R -> Prop :=
  | OScalar a : ordered (MScalar a)
  | OSparse m rows d : (forall row, In row rows -> StronglySorted lt (map fst row)) -> (forall row j b, In row rows -> In (j, b) row -> ordered b) -> ordered (MSparse m rows d)
  | ODense rows : (forall row b, In row rows -> In b row -> ordered b) -> ordered (MDense rows).
  (** the degrees of freedom that are not ignored, in ascending order *)
  Definition isIgnored (ignore : option (@vtree bool)) (i : nat) : bool := match ignore with None => false | Some v => nth i (entries v) false end.
  Definition kept (ignore : option (@vtree bool)) (n : nat) : list nat := filter (fun i => negb (isIgnored ignore i)) (seq 0 n).
  (** the ignore field has one flag per degree of freedom *)
  Definition fits (ignore : option (@vtree bool)) (n : nat) : Prop := match ignore with None => True | Some v => length (entries v) = n end.
  (** earlier calls of setMatrix left nothing behind that this one does not overwrite *)
  Definition ready (st : state) (ignore : option (@vtree bool)) : Prop :=
    match ignore with None => subIndices st = nil | Some v => forall i, nth i (entries v) false = true -> nth i (subIndices st) None = None end.
  (** the nesting of a vector *)
  Fixpoint shape {X} (v : @vtree X) : @vtree unit := match v with VScalar _ => VScalar tt | VNode l => VNode (map shape l) end.

  Local Close Scope ring_scope_istl.
  (** ** Order of the calls of flatMatrixForEach *)
  Definition before (x y : R * nat * nat) : Prop := snd (fst x) = snd (fst y) -> snd x < snd y.
  Lemma SS_app {X} (P : X -> X -> Prop) l1 l2 : StronglySorted P l1 -> StronglySorted P l2 -> (forall x y, In x l1 -> In y l2 -> P x y) -> StronglySorted P (l1 ++ l2).
  Proof.
    induction 1 as [|x l S IH F]; intros S2 C; cbn; auto. constructor.
    - apply IH; auto. intros; apply C; auto. right; auto.
    - rewrite Forall_forall in *. intros y Y. apply in_app_iff in Y. destruct Y; [auto|]. apply C; auto. left; auto.
  Qed.
  Lemma fmfe_block (b : @mtree R) h w ro co cs d : Dim b h w -> fmfe b ro co = Ok (cs, d) -> d = (h, w) /\ forall a r c, In (a, r, c) cs -> ro <= r < ro + h /\ co <= c < co + w.
  Proof.
    intros D E. destruct (all_good b h w D) as [B G]. destruct (G ro co) as (cs' & E' & [C _]). rewrite E in E'. injection E' as <- ->. split; auto.
    intros a r c I. apply C in I. destruct I as (r' & c' & -> & -> & H). apply B in H. lia.
  Qed.
  Lemma obind_Ok {X Y} (x : outcome X) (f : X -> outcome Y) y : obind x f = Ok y -> exists a, x = Ok a /\ f a = Ok y.
  Proof. destruct x; cbn; try discriminate. eauto. Qed.
  Lemma fmfe_sorted (t : @mtree R) : forall h w, Dim t h w -> ordered t -> forall ro co cs d, fmfe t ro co = Ok (cs, d) -> StronglySorted before cs.
  Proof.
    induction t as [a|m rows dflt IH IHD|rows IH] using mtree_ind'; intros h w D O ro co cs d E.
    - injection E as <- _. repeat constructor.
    - inversion D as [ |m' rows' dflt' br bc HE HD0 ND PN|]; subst. inversion O as [|? ? ? OS OB|]; subst. cbn [fmfe] in E.
      apply obind_Ok in E. destruct E as ([c0 [br' bc']] & E0 & E).
      assert (BB : br' = br /\ bc' = bc).
      { clear E. revert E0. match goal with |- ?g rows = _ -> _ => set (first := g) end.
        assert (G : forall rs, (forall row j b, In row rs -> In (j, b) row -> Dim b br bc) -> ((forall row, In row rs -> row = nil) -> Dim dflt br bc) -> first rs = Ok (c0, (br', bc')) -> br' = br /\ bc' = bc).
        { induction rs as [|[|[j b] es] rs IHr]; intros G1 G2 E0.
          - destruct (fmfe_block dflt br bc 0 0 _ _ (G2 ltac:(intros ? [])) E0) as [[= -> ->] _]. auto.
          - apply IHr; auto; [intros row j b I1 I2; eapply G1; eauto; right; auto|]. intros H. apply G2. intros row [<-|HI]; auto.
          - destruct (fmfe_block b br bc 0 0 _ _ (G1 _ j b (or_introl eq_refl) (or_introl eq_refl)) E0) as [[= -> ->] _]. auto. }
        apply G; auto. intros; eapply HE; eauto. }
      destruct BB as [-> ->]. destruct ((br =? 0) && (bc =? 0)); [discriminate|]. apply obind_Ok in E. destruct E as (calls & E & [= <- _]).
      revert E. match goal with |- ?g rows 0 nil = _ -> _ => set (rloop := g) end. intros E.
      assert (G : forall rs i0 calls0 out, (forall row, In row rs -> In row rows) -> rloop rs i0 calls0 = Ok out -> exists extra, out = calls0 ++ extra /\ StronglySorted before extra /\ forall a r c, In (a, r, c) extra -> ro + i0 * br <= r).
      { induction rs as [|row rs IHr]; intros i0 calls0 out SUB EX.
        - injection EX as <-. exists nil. rewrite app_nil_r. split; [auto|split; [constructor|intros ? ? ? []]].
        - assert (IRW : In row rows) by (apply SUB; left; auto).
          match type of EX with rloop (row :: rs) i0 calls0 = _ =>
            let e := eval cbv beta iota delta [rloop] in (rloop (row :: rs) i0 calls0) in
            match e with obind (?g row calls0) _ => set (cloop := g) end end.
          change (obind (cloop row calls0) (fun calls => rloop rs (S i0) calls) = Ok out) in EX. apply obind_Ok in EX. destruct EX as (out1 & E1 & E2).
          assert (GC : forall es calls1 out1, (forall j b, In (j, b) es -> In (j, b) row) -> StronglySorted lt (map fst es) -> cloop es calls1 = Ok out1 ->
            exists extra, out1 = calls1 ++ extra /\ StronglySorted before extra /\ forall a r c, In (a, r, c) extra -> ro + i0 * br <= r < ro + i0 * br + br /\ exists j b, In (j, b) es /\ co + j * bc <= c).
          { clear E1 E2. induction es as [|[j b] es IHe]; intros calls1 o1 SE SS EX.
            - injection EX as <-. exists nil. rewrite app_nil_r. split; [auto|split; [constructor|intros ? ? ? []]].
            - change (obind (fmfe b (ro + i0 * br) (co + j * bc)) (fun r => let '(cs, (nr, nc)) := r in if (nr =? br) && (nc =? bc) then cloop es (calls1 ++ cs) else Throw EAbort) = Ok o1) in EX.
              apply obind_Ok in EX. destruct EX as ([cs [nr nc]] & EB & EX). destruct ((nr =? br) && (nc =? bc)); [|discriminate].
              assert (IB : In (j, b) row) by (apply SE; left; auto). destruct (HE row j b IRW IB) as [_ DB]. destruct (fmfe_block _ _ _ _ _ _ _ DB EB) as [_ BB].
              cbn [map fst] in SS. inversion SS as [|? ? SS' FF]; subst. destruct (IHe _ _ (fun j' b' h => SE j' b' (or_intror h)) SS' EX) as (extra & -> & SX & BX).
              exists (cs ++ extra). split; [now rewrite app_assoc|]. split.
              + apply SS_app; auto; [eapply (IH row j b IRW IB); eauto|]. intros [[a r] c] [[a' r'] c'] I1 I2. unfold before; cbn. intros _. apply BB in I1. apply BX in I2. destruct I2 as (_ & j' & b' & IJ & LE).
                rewrite Forall_forall in FF. apply (in_map fst) in IJ. apply FF in IJ. cbn in IJ. nia.
              + intros a r c I. apply in_app_iff in I. destruct I as [I|I]; [apply BB in I; split; [lia|]; exists j, b; split; [left; auto|lia]|]. apply BX in I. destruct I as (I & j' & b' & IJ & LE). split; auto. exists j', b'. split; auto. right; auto. }
          destruct (GC row calls0 out1 (fun _ _ h => h) (OS row IRW) E1) as (e1 & -> & S1 & B1). destruct (IHr (S i0) _ out ltac:(intros; apply SUB; right; auto) E2) as (e2 & -> & S2 & B2).
          exists (e1 ++ e2). split; [now rewrite app_assoc|]. split.
          + apply SS_app; auto. intros [[a r] c] [[a' r'] c'] I1 I2. unfold before; cbn. apply B1 in I1. apply B2 in I2. cbn [Nat.mul] in I2. lia.
          + intros a r c I. apply in_app_iff in I. destruct I as [I|I]; [apply B1 in I; lia|apply B2 in I; cbn [Nat.mul] in I; lia]. }
      destruct (G rows 0 nil calls (fun _ h => h) E) as (extra & -> & S & _). exact S.
    - inversion D as [ | |rows' hs ws NR NW LH LW HE]; subst. inversion O as [| |? OB]; subst. cbn [fmfe] in E.
      revert E. match goal with |- ?g rows 0 0 None nil = _ -> _ => set (rloop := g) end. intros E.
      assert (G : forall rs i0 r0 c0 nr calls0 out d, skipn i0 rows = rs -> rloop rs r0 c0 nr calls0 = Ok (out, d) -> exists extra, out = calls0 ++ extra /\ StronglySorted before extra /\ forall a r c, In (a, r, c) extra -> ro + r0 <= r).
      { induction rs as [|row rs IHr]; intros i0 r0 c0 nr calls0 out d0 SK EX.
        - injection EX as <- _. exists nil. rewrite app_nil_r. split; [auto|split; [constructor|intros ? ? ? []]].
        - assert (LI : i0 < length rows) by (apply (f_equal (@length _)) in SK; rewrite skipn_length in SK; cbn in SK; lia).
          assert (N0 : nth_error rows i0 = Some row). { rewrite <- (firstn_skipn i0 rows), SK, nth_error_app2; rewrite firstn_length_le by lia; [|lia]. now rewrite Nat.sub_diag. }
          assert (SK' : skipn (S i0) rows = rs). { clear - SK. revert i0 SK. induction rows as [|x t IHt]; intros [|i0] SK; cbn in *; try discriminate; [injection SK; auto|]. apply IHt. auto. }
          match type of EX with rloop (row :: rs) r0 c0 nr calls0 = _ =>
            let e := eval cbv beta iota delta [rloop] in (rloop (row :: rs) r0 c0 nr calls0) in
            match e with obind (?g row 0 nr calls0) _ => set (cloop := g) end end.
          change (obind (cloop row 0 nr calls0) (fun x => let '(c', nr', calls') := x in match nr' with None => UB | Some n => rloop rs (r0 + n)%nat c' nr' calls' end) = Ok (out, d0)) in EX.
          apply obind_Ok in EX. destruct EX as ([[c' nr'] out1] & E1 & E2). destruct nr' as [n|]; [|discriminate].
          assert (GC : forall es j0 c1 nr1 calls1 c2 nr2 o1, skipn j0 row = es -> (es = nil -> nr1 = Some (nth i0 hs 0)) -> cloop es c1 nr1 calls1 = Ok (c2, nr2, o1) ->
            nr2 = Some (nth i0 hs 0) /\ exists extra, o1 = calls1 ++ extra /\ StronglySorted before extra /\ forall a r c, In (a, r, c) extra -> ro + r0 <= r < ro + r0 + nth i0 hs 0 /\ co + c1 <= c).
          { clear E1 E2. induction es as [|b es IHe]; intros j0 c1 nr1 calls1 c2 nr2 o1 SKJ NRE EX.
            - injection EX as <- <- <-. split; auto. exists nil. rewrite app_nil_r. split; [auto|split; [constructor|intros ? ? ? []]].
            - change (obind (fmfe b (ro + r0) (co + c1)) (fun x => let '(cs, (n1, n2)) := x in cloop es (c1 + n2)%nat (Some n1) (calls1 ++ cs)) = Ok (c2, nr2, o1)) in EX.
              apply obind_Ok in EX. destruct EX as ([cs1 [n1 n2]] & EB & EX).
              assert (LJ : j0 < length row) by (apply (f_equal (@length _)) in SKJ; rewrite skipn_length in SKJ; cbn in SKJ; lia).
              assert (NB : nth_error row j0 = Some b). { rewrite <- (firstn_skipn j0 row), SKJ, nth_error_app2; rewrite firstn_length_le by lia; [|lia]. now rewrite Nat.sub_diag. }
              assert (SKJ' : skipn (S j0) row = es). { clear - SKJ. revert j0 SKJ. induction row as [|x t IHt]; intros [|j0] SKJ; cbn in *; try discriminate; [injection SKJ; auto|]. apply IHt. auto. }
              pose proof (HE i0 j0 row b N0 NB) as DB. destruct (fmfe_block _ _ _ _ _ _ _ DB EB) as [[= -> ->] BB].
              destruct (IHe (S j0) _ _ _ _ _ _ SKJ' ltac:(auto) EX) as (-> & extra & -> & SX & BX). split; auto. exists (cs1 ++ extra). split; [now rewrite app_assoc|]. split.
              + apply SS_app; auto; [eapply (IH row b); eauto using nth_error_In|]. intros [[a r] c] [[a' r'] c''] I1 I2. unfold before; cbn. intros _. apply BB in I1. apply BX in I2. lia.
              + intros a r c I. apply in_app_iff in I. destruct I as [I|I]; [apply BB in I; lia|apply BX in I; lia]. }
          assert (RN : row <> nil) by (intros ->; apply NW; specialize (LW i0 nil N0); destruct ws; [auto|discriminate]).
          destruct (GC row 0 0 nr calls0 c' (Some n) out1 eq_refl ltac:(congruence) E1) as ([= ->] & e1 & -> & S1 & B1). destruct (IHr (S i0) _ _ _ _ _ _ SK' E2) as (e2 & -> & S2 & B2).
          exists (e1 ++ e2). split; [now rewrite app_assoc|]. split.
          + apply SS_app; auto. intros [[a r] c] [[a' r'] c''] I1 I2. unfold before; cbn. apply B1 in I1. apply B2 in I2. lia.
          + intros a r c I. apply in_app_iff in I. destruct I as [I|I]; [apply B1 in I; lia|apply B2 in I; lia]. }
      destruct (G rows 0 0 0 None nil cs d eq_refl E) as (extra & -> & S & _). exact S.
  Qed.

  (** ** The arrays *)
  Definition rowOf (k : nat) (E : list (nat * (nat * R))) : list (nat * R) := map snd (filter (fun e => fst e =? k) E).
  Lemma rowOf_app k E1 E2 : rowOf k (E1 ++ E2) = rowOf k E1 ++ rowOf k E2.
  Proof. unfold rowOf. now rewrite filter_app, map_app. Qed.
  Section Loops.
    Variables (ign : option (list bool)) (sub : list (option nat)) (p : nat -> nat -> bool) (rk : nat -> nat) (N : nat).
    Definition good1 (e : R * nat * nat) : Prop := let '(_, r, c) := e in visited ign r c = Ok (p r c) /\ (p r c = true -> reduced ign sub r = Ok (rk r) /\ reduced ign sub c = Ok (rk c) /\ rk r < N).
    Definition picked (calls : list (R * nat * nat)) : list (nat * (nat * R)) := flat_map (fun e => let '(a, r, c) := e in if p r c then [(rk r, (rk c, a))] else nil) calls.
    Lemma countLoop_ok calls : Forall good1 calls -> forall ap, length ap = S N ->
      exists ap', countLoop ign sub calls ap = Ok ap' /\ length ap' = S N /\ nth 0 ap' 0 = nth 0 ap 0 /\ forall k, k < N -> nth (S k) ap' 0 = nth (S k) ap 0 + length (rowOf k (picked calls)).
    Proof.
      induction 1 as [|[[a r] c] t [V G] F IH]; intros ap L; cbn [countLoop picked flat_map].
      - exists ap. repeat split; auto.
      - rewrite V. cbn [obind]. change (flat_map _ t) with (picked t). destruct (p r c) eqn:P; [|destruct (IH ap L) as (ap' & E & H); exists ap'; auto].
        destruct (G eq_refl) as (E1 & _ & LT). rewrite E1. cbn [obind]. replace (S (rk r) <? length ap) with true by (symmetry; apply Nat.ltb_lt; lia).
        destruct (IH (upd ap (S (rk r)) (S (nth (S (rk r)) ap 0)))) as (ap' & E & L' & Z & H); [now rewrite upd_length|]. exists ap'. split; auto. split; auto. split; [rewrite Z; destruct ap; auto|].
        intros k K. rewrite H by auto. rewrite nth_upd. change ([(rk r, (rk c, a))] ++ picked t) with (((rk r, (rk c, a))) :: picked t). unfold rowOf. cbn [filter fst].
        destruct (Nat.eqb_spec (rk r) k) as [Q|Q]; [rewrite Q|].
        + replace (S k =? S k) with true by (symmetry; apply Nat.eqb_refl). cbn [map length]. replace (S k <? length ap) with true by (symmetry; apply Nat.ltb_lt; lia). cbn [andb]. lia.
        + replace (S (rk r) =? S k) with false by (symmetry; apply Nat.eqb_neq; lia). cbn [andb]. auto.
    Qed.
    (** positions already written after the entries D of E *)
    Definition start (E : list (nat * (nat * R))) (k : nat) : nat := length (filter (fun e => fst e <? k) E).
    Lemma start_S E k : start E (S k) = start E k + length (rowOf k E).
    Proof. unfold start, rowOf. rewrite map_length. induction E as [|[i x] E IH]; cbn [filter fst]; auto. destruct (Nat.ltb_spec i (S k)), (Nat.ltb_spec i k), (Nat.eqb_spec i k); cbn [length]; lia. Qed.
    Lemma start_mono E k l : k <= l -> start E k <= start E l.
    Proof. induction 1 as [|l H IH]; auto. rewrite start_S. lia. Qed.
    Lemma start_le E k : start E k <= length E.
    Proof. unfold start. induction E as [|e E IH]; cbn [filter]; auto. destruct (fst e <? k); cbn [length]; lia. Qed.
    Definition written {X} (E D : list (nat * (nat * R))) (f : nat * R -> X) (l : list (option X)) : Prop :=
      forall k q e, nth_error (rowOf k D) q = Some e -> nth_error l (start E k + q) = Some (Some (f e)).
    Lemma written_upd {X} (E D D' : list (nat * (nat * R))) (f : nat * R -> X) l k e : E = D ++ (k, e) :: D' -> length E <= length l -> written E D f l ->
      written E (D ++ [(k, e)]) f (upd l (start E k + length (rowOf k D)) (Some (f e))).
    Proof.
      intros EE LE W k' q e' H. rewrite rowOf_app in H. rewrite nth_error_upd.
      assert (L1 : length (rowOf k [(k, e)]) = 1) by (unfold rowOf; cbn [filter fst]; rewrite Nat.eqb_refl; reflexivity).
      assert (SK : length (rowOf k D) + 1 <= length (rowOf k E)) by (rewrite EE; change ((k, e) :: D') with ([(k, e)] ++ D'); rewrite !rowOf_app, !app_length, L1; lia). pose proof (start_S E k) as SS. pose proof (start_le E (S k)) as SL.
      destruct (Nat.eqb_spec k' k) as [Q|Q].
      - subst k'. destruct (Nat.lt_trichotomy q (length (rowOf k D))) as [LT|[EQ|GT]].
        + rewrite nth_error_app1 in H by auto. replace (start E k + length (rowOf k D) =? start E k + q) with false by (symmetry; apply Nat.eqb_neq; lia). apply W; auto.
        + subst q. rewrite nth_error_app2, Nat.sub_diag in H by lia. unfold rowOf at 1 in H. cbn [filter fst] in H. rewrite Nat.eqb_refl in H. cbn in H. injection H as <-. rewrite Nat.eqb_refl.
          replace (start E k + length (rowOf k D) <? length l) with true by (symmetry; apply Nat.ltb_lt; lia). auto.
        + assert (HN : nth_error (rowOf k D ++ rowOf k [(k, e)]) q <> None) by congruence. apply nth_error_Some in HN. rewrite app_length in HN. lia.
      - assert (RN : rowOf k' [(k, e)] = nil) by (unfold rowOf; cbn [filter fst]; destruct (Nat.eqb_spec k k'); [congruence|reflexivity]). rewrite RN, app_nil_r in H.
        assert (QL : q < length (rowOf k' D)) by (apply nth_error_Some; congruence). assert (SK' : length (rowOf k' D) <= length (rowOf k' E)) by (rewrite EE, rowOf_app, app_length; lia).
        pose proof (start_S E k') as SS'.
        replace (start E k + length (rowOf k D) =? start E k' + q) with false; [apply W; auto|]. symmetry; apply Nat.eqb_neq.
        destruct (Nat.lt_total k' k) as [LT|[EQ|GT]]; [pose proof (start_mono E (S k') k LT); lia|congruence|pose proof (start_mono E (S k) k' GT); lia].
    Qed.
    Lemma fillLoop_ok E ap : (forall k, k < N -> nth k ap 0 = start E k) -> forall calls D rowPos ai ax,
      Forall good1 calls -> E = D ++ picked calls -> length rowPos = N -> (forall k, k < N -> nth k rowPos 0 = length (rowOf k D)) -> length E <= length ai -> length ax = length ai ->
      written E D fst ai -> written E D snd ax ->
      exists ai' ax', fillLoop ign sub ap calls rowPos ai ax = Ok (ai', ax') /\ length ai' = length ai /\ length ax' = length ai /\ written E E fst ai' /\ written E E snd ax'.
    Proof.
      intros AP. induction calls as [|[[a r] c] t IH]; intros D rowPos ai ax F EE LR RP LE LX W1 W2.
      - cbn in EE. rewrite app_nil_r in EE. rewrite <- EE in *. exists ai, ax. cbn. auto.
      - inversion F as [|? ? GG F']; subst. destruct GG as [V G]. cbn [fillLoop]. rewrite V. cbn [obind]. change (picked ((a, r, c) :: t)) with ((if p r c then [(rk r, (rk c, a))] else nil) ++ picked t) in *.
        destruct (p r c) eqn:P; [|cbn [app] in *; apply (IH D); auto].
        destruct (G eq_refl) as (E1 & E2 & LT). rewrite E1, E2. cbn [obind app] in *. set (E := D ++ (rk r, (rk c, a)) :: picked t) in *.
        rewrite AP, RP by auto.
        assert (QL : start E (rk r) + length (rowOf (rk r) D) < length ai).
        { pose proof (start_S E (rk r)). pose proof (start_le E (S (rk r))). assert (length (rowOf (rk r) D) < length (rowOf (rk r) E)); [|lia]. unfold E. rewrite rowOf_app, app_length. unfold rowOf at 3. cbn [filter fst]. rewrite Nat.eqb_refl. cbn. lia. }
        replace (rk r <? length rowPos) with true by (symmetry; apply Nat.ltb_lt; lia). replace (start E (rk r) + length (rowOf (rk r) D) <? length ai) with true by (symmetry; apply Nat.ltb_lt; lia). cbn [andb].
        destruct (IH (D ++ [(rk r, (rk c, a))]) (upd rowPos (rk r) (S (length (rowOf (rk r) D)))) (upd ai (start E (rk r) + length (rowOf (rk r) D)) (Some (rk c))) (upd ax (start E (rk r) + length (rowOf (rk r) D)) (Some a))) as (ai' & ax' & X1 & X2 & X3 & X4).
        + auto.
        + unfold E. rewrite <- app_assoc. reflexivity.
        + now rewrite upd_length.
        + intros k K. rewrite nth_upd, rowOf_app, app_length. unfold rowOf at 3. cbn [filter fst]. destruct (Nat.eqb_spec (rk r) k) as [Q|Q]; [rewrite Q|cbn; rewrite RP by auto; lia]. replace (k <? length rowPos) with true by (symmetry; apply Nat.ltb_lt; lia). cbn; lia.
        + now rewrite upd_length.
        + now rewrite !upd_length.
        + apply (written_upd E D (picked t) fst ai (rk r) (rk c, a)); auto.
        + apply (written_upd E D (picked t) snd ax (rk r) (rk c, a)); auto. lia.
        + rewrite upd_length in *. exists ai', ax'. auto.
    Qed.
  End Loops.
  Lemma accumulate_ok (f : nat -> nat) n : forall i ap, length ap = S (i + n) -> nth i ap 0 = f i -> (forall k, k < i + n -> i <= k -> f (S k) = f k + nth (S k) ap 0) ->
    length (accumulate i n ap) = length ap /\ (forall k, k <= i -> nth k (accumulate i n ap) 0 = nth k ap 0) /\ forall k, i <= k <= i + n -> nth k (accumulate i n ap) 0 = f k.
  Proof.
    induction n as [|n IH]; intros i ap L H0 HS; cbn [accumulate].
    - split; auto. split; auto. intros k K. replace k with i by lia. auto.
    - set (ap1 := upd ap (S i) (nth (S i) ap 0 + nth i ap 0)). assert (E1 : nth (S i) ap1 0 = f (S i)) by (unfold ap1; rewrite nth_upd_eq by lia; rewrite HS, H0 by lia; lia).
      destruct (IH (S i) ap1) as (L1 & P1 & P2); [unfold ap1; rewrite upd_length; lia|auto| |].
      + intros k K1 K2. unfold ap1. rewrite nth_upd_ne by lia. apply HS; lia.
      + split; [rewrite L1; apply upd_length|]. split.
        * intros k K. rewrite P1 by lia. unfold ap1. apply nth_upd_ne. lia.
        * intros k K. destruct (Nat.eq_dec k i) as [Q|Q]; [subst k; rewrite P1 by lia; unfold ap1; rewrite nth_upd_ne by lia; auto|apply P2; lia].
  Qed.

  (** ** The numbering of the kept degrees of freedom *)
  Definition rank (g : option (@vtree bool)) (i : nat) : nat := length (kept g i).
  Definition keep (g : option (@vtree bool)) (i : nat) : bool := negb (isIgnored g i).
  Lemma kept_S g i : kept g (S i) = kept g i ++ (if keep g i then [i] else nil).
  Proof. unfold kept. rewrite seq_S, filter_app. reflexivity. Qed.
  Lemma rank_S g i : rank g (S i) = rank g i + (if keep g i then 1 else 0).
  Proof. unfold rank. rewrite kept_S, app_length. destruct (keep g i); auto. Qed.
  Lemma rank_mono g i j : i <= j -> rank g i <= rank g j.
  Proof. induction 1 as [|j H IH]; auto. rewrite rank_S. lia. Qed.
  Lemma rank_lt g i j : i < j -> keep g i = true -> rank g i < rank g j.
  Proof. intros H K. pose proof (rank_mono g (S i) j H). rewrite rank_S, K in H0. lia. Qed.
  Lemma rank_inj g i j : keep g i = true -> keep g j = true -> rank g i = rank g j -> i = j.
  Proof. intros K1 K2 E. destruct (Nat.lt_total i j) as [H|[H|H]]; auto; [pose proof (rank_lt g i j H K1)|pose proof (rank_lt g j i H K2)]; lia. Qed.
  Lemma nth_kept g n i : i < n -> keep g i = true -> nth (rank g i) (kept g n) 0 = i.
  Proof.
    intros H K. replace n with (S i + (n - S i)) by lia. unfold kept. rewrite seq_app, filter_app, app_nth1; [|pose proof (rank_lt g i (S i) ltac:(lia) K) as L; unfold rank, kept in L; exact L].
    fold (kept g (S i)). rewrite kept_S, K. rewrite app_nth2 by (unfold rank; lia). unfold rank. rewrite Nat.sub_diag. reflexivity.
  Qed.
  Lemma kept_rank g n k : k < length (kept g n) -> nth k (kept g n) 0 < n /\ keep g (nth k (kept g n) 0) = true /\ rank g (nth k (kept g n) 0) = k.
  Proof.
    induction n as [|n IH]; [cbn; lia|]. rewrite kept_S, app_length. intros H. destruct (Nat.lt_ge_cases k (length (kept g n))) as [L|L].
    - rewrite app_nth1 by auto. destruct (IH L) as (H1 & H2 & H3). auto.
    - destruct (keep g n) eqn:K; cbn [length] in H; [|lia]. assert (k = length (kept g n)) as -> by lia. rewrite app_nth2, Nat.sub_diag by lia. cbn [nth]. auto.
  Qed.
  Lemma fvfe_entries {X} (v : @vtree X) : fst (fvfe v 0) = combine (entries v) (seq 0 (length (entries v))).
  Proof. now rewrite C42_vector. Qed.
  Lemma map_fst_combine {X Y} (l : list X) : forall (m : list Y), length l = length m -> map fst (combine l m) = l.
  Proof. induction l as [|x l IH]; intros [|y m] H; cbn in *; try discriminate; auto. rewrite IH; congruence. Qed.
  Lemma flat_ignore v : map fst (fst (fvfe v 0)) = @entries bool v.
  Proof. rewrite fvfe_entries. apply map_fst_combine. now rewrite seq_length. Qed.
  Lemma ignored_count (v : @vtree bool) n : n <= length (entries v) -> length (filter (fun b => b) (firstn n (entries v))) + length (kept (Some v) n) = n.
  Proof.
    induction n as [|n IH]; intros L; [reflexivity|]. rewrite kept_S, app_length. assert (F : firstn (S n) (entries v) = firstn n (entries v) ++ [nth n (entries v) false]).
    { clear IH. revert n L. induction (entries v) as [|x l IH]; intros [|n] L; cbn in *; try lia; auto. f_equal. apply IH. lia. }
    rewrite F, filter_app, app_length. unfold keep, isIgnored. cbn [filter]. specialize (IH ltac:(lia)). destruct (nth n (entries v) false); cbn [negb length]; lia.
  Qed.
  Lemma numberLoop_ok (v : @vtree bool) m : forall i sub, i + m <= length (entries v) -> i + m <= length sub ->
    exists sub', numberLoop (entries v) i m (rank (Some v) i) sub = Ok sub' /\ length sub' = length sub /\ forall j, nth j sub' None = if (i <=? j) && (j <? i + m) && keep (Some v) j then Some (rank (Some v) j) else nth j sub None.
  Proof.
    induction m as [|m IH]; intros i sub L1 L2; cbn [numberLoop].
    - exists sub. split; auto. split; auto. intros j. destruct (Nat.leb_spec i j), (Nat.ltb_spec j (i + 0)); auto; lia.
    - assert (NE : nth_error (entries v) i = Some (nth i (entries v) false)) by (apply nth_error_nth'; lia). rewrite NE. pose proof (rank_S (Some v) i) as RS. unfold keep, isIgnored in RS.
      destruct (nth i (entries v) false) eqn:B; cbn [negb] in RS.
      + rewrite Nat.add_0_r in RS. rewrite <- RS. destruct (IH (S i) sub) as (sub' & E & L & H); [lia|lia|]. exists sub'. split; auto. split; auto. intros j. rewrite H.
        destruct (Nat.eq_dec j i) as [Q|Q]; [subst j; unfold keep, isIgnored; rewrite B; cbn [negb]; now rewrite !andb_false_r|]. replace (S i <=? j) with (i <=? j) by (destruct (Nat.leb_spec i j), (Nat.leb_spec (S i) j); auto; lia). now replace (S i + m) with (i + S m) by lia.
      + rewrite Nat.add_1_r in RS. rewrite <- RS. destruct (IH (S i) (upd sub i (Some (rank (Some v) i)))) as (sub' & E & L & H); [lia|rewrite upd_length; lia|]. exists sub'. split; auto. split; [now rewrite L, upd_length|]. intros j. rewrite H.
        destruct (Nat.eq_dec j i) as [Q|Q].
        * subst j. replace (S i <=? i) with false by (symmetry; apply Nat.leb_gt; lia). cbn [andb]. rewrite nth_upd_eq by lia. unfold keep, isIgnored; rewrite B. replace (i <=? i) with true by (symmetry; apply Nat.leb_le; lia). replace (i <? i + S m) with true by (symmetry; apply Nat.ltb_lt; lia). reflexivity.
        * rewrite nth_upd_ne by auto. replace (S i <=? j) with (i <=? j) by (destruct (Nat.leb_spec i j), (Nat.leb_spec (S i) j); auto; lia). now replace (S i + m) with (i + S m) by lia.
  Qed.
  Lemma resize_length {X} n (v : X) l : length (resize n v l) = n.
  Proof. unfold resize. rewrite app_length, firstn_length, repeat_length. lia. Qed.
  Lemma nth_resize {X} n (v : X) l j : j < n -> nth j (resize n v l) v = nth j l v.
  Proof.
    intros H. unfold resize. destruct (Nat.lt_ge_cases j (length l)) as [L|L].
    - rewrite app_nth1 by (rewrite firstn_length; lia). rewrite <- (firstn_skipn n l) at 2. rewrite app_nth1; auto. rewrite firstn_length; lia.
    - rewrite app_nth2 by (rewrite firstn_length; lia). rewrite (nth_overflow l) by auto. rewrite firstn_length. set (m := n - length l). set (k := j - Nat.min n (length l)). clearbody m k. clear. revert k. induction m as [|m IH]; intros [|k]; cbn; auto.
  Qed.

  (** ** The matrix that CHOLMOD receives *)
  Definition pick (g : option (@vtree bool)) (r c : nat) : bool := keep g r && keep g c && (r <=? c).
  Lemma picked_in p rk calls k l a : In (k, (l, a)) (picked p rk calls) <-> exists r c, In (a, r, c) calls /\ p r c = true /\ k = rk r /\ l = rk c.
  Proof.
    unfold picked. rewrite in_flat_map. split.
    - intros ([[a' r] c] & I & H). destruct (p r c) eqn:P; [|destruct H]. destruct H as [[= <- <- <-]|[]]. exists r, c. auto.
    - intros (r & c & I & P & -> & ->). exists (a, r, c). split; auto. rewrite P. left; auto.
  Qed.
  Lemma picked_length g (rk : nat -> nat) calls : length (picked (pick g) rk calls) <= length (filter (fun e : R * nat * nat => snd (fst e) <=? snd e) calls).
  Proof.
    induction calls as [|[[a r] c] t IH]; auto. unfold picked. cbn [flat_map filter]. rewrite app_length. fold (picked (pick g) rk t). cbn [fst snd]. unfold pick at 1. destruct (keep g r && keep g c), (r <=? c); cbn [andb length]; lia.
  Qed.
  Lemma picked_sorted g calls : StronglySorted before calls -> StronglySorted (fun x y : nat * (nat * R) => fst x = fst y -> fst (snd x) < fst (snd y)) (picked (pick g) (rank g) calls).
  Proof.
    induction 1 as [|[[a r] c] t S IH F]; [constructor|]. unfold picked. cbn [flat_map]. fold (picked (pick g) (rank g) t). destruct (pick g r c) eqn:P; auto. cbn [app]. constructor; auto.
    rewrite Forall_forall in *. intros [k [l b]] I. apply picked_in in I. destruct I as (r' & c' & I & P' & -> & ->). cbn [fst snd]. intros E. apply F in I. unfold before in I. cbn [fst snd] in I.
    unfold pick in P, P'. rewrite !andb_true_iff in P, P'. apply rank_lt; [|tauto]. apply I. apply (rank_inj g); tauto.
  Qed.
  Lemma rowOf_sorted k (E : list (nat * (nat * R))) : StronglySorted (fun x y => fst x = fst y -> fst (snd x) < fst (snd y)) E -> StronglySorted lt (map fst (rowOf k E)).
  Proof.
    unfold rowOf. induction 1 as [|[i e] E S IH F]; cbn [filter fst]; [constructor|]. destruct (Nat.eqb_spec i k) as [Q|Q]; auto. cbn [map snd]. constructor; auto.
    rewrite Forall_forall in *. intros x I. rewrite map_map in I. apply in_map_iff in I. destruct I as ([i' e'] & <- & I). apply filter_In in I. destruct I as [I H]. apply Nat.eqb_eq in H. cbn in H. apply F in I. cbn in I |- *. apply I.
    rewrite Q. symmetry. exact H.
  Qed.
  Lemma rowOf_in k E e : In e (rowOf k E) <-> In (k, e) E.
  Proof.
    unfold rowOf. rewrite in_map_iff. split.
    - intros ([i e'] & <- & I). apply filter_In in I. destruct I as [I H]. apply Nat.eqb_eq in H. cbn in *. now subst.
    - intros I. exists (k, e). split; auto. apply filter_In. split; auto. apply Nat.eqb_refl.
  Qed.
  Lemma flat_map_seq {X} (g : nat -> list X) L : forall s, (forall q e, nth_error L q = Some e -> g (s + q) = [e]) -> flat_map g (seq s (length L)) = L.
  Proof.
    induction L as [|x L IH]; intros s H; auto. cbn [length seq flat_map]. pose proof (H 0 x eq_refl) as H0. rewrite Nat.add_0_r in H0. rewrite H0. cbn [app]. f_equal. apply IH. intros q e Q. replace (S s + q) with (s + S q) by lia. apply H. auto.
  Qed.
  Lemma at_shifted (t : @mtree R) a r c : shifted t 0 0 a r c <-> At t r c a.
  Proof. unfold shifted. split; [intros (r' & c' & -> & -> & H); auto|intros H; exists r, c; auto]. Qed.
  (** setMatrix(matrix, ignore) succeeds for every state of the wrapper *)
  Theorem C63_matrix st (t : @mtree R) n A g : Dim t n n -> ordered t -> dense t n A -> fits g n -> kept g n <> nil ->
    exists M st', setMatrix st t g = Ok st' /\ factor st' = Some M /\ nIsZero st' = false /\
      legal M /\ cN M = length (kept g n) /\
      (forall i j, i <= j < cN M -> meaning M i j = A (nth i (kept g n) 0) (nth j (kept g n) 0) /\ meaning M j i = meaning M i j) /\
      match g with
      | None => subIndices st' = subIndices st
      | Some _ => length (subIndices st') = n /\ forall i, i < n -> nth i (subIndices st') None = if keep g i then Some (rank g i) else nth i (subIndices st) None
      end.
  Proof.
    intros D O DE FI NE. destruct (all_good t n n D) as [BD G]. destruct (G 0 0) as (calls & E & [CI ND]). pose proof (fmfe_sorted t n n D O 0 0 calls _ E) as SS.
    assert (CA : forall a r c, In (a, r, c) calls <-> At t r c a) by (intros; rewrite CI; apply at_shifted). clear CI G.
    unfold setMatrix. rewrite E. cbn [obind]. set (N := length (kept g n)).
    assert (NP : 0 < N) by (unfold N; destruct (kept g n); [congruence|cbn; lia]).
    set (ign := match g with None => None | Some v => Some (map fst (fst (fvfe v 0))) end).
    assert (IE : ign = match g with None => None | Some v => Some (entries v) end) by (unfold ign; destruct g; [now rewrite flat_ignore|auto]). clearbody ign. subst ign.
    set (ign := match g with None => None | Some v => Some (entries v) end). set (ignored := match ign with None => 0 | Some f => length (filter (fun b => b) f) end).
    assert (NE1 : ignored + N = n).
    { unfold ignored, ign, N. destruct g as [v|]; cbn [fits] in FI.
      - pose proof (ignored_count v n ltac:(lia)) as H. rewrite firstn_all2 in H by lia. exact H.
      - unfold kept. cbn [isIgnored negb]. replace (filter _ _) with (seq 0 n); [rewrite seq_length; lia|]. symmetry. generalize (seq 0 n). induction l as [|x l IH]; cbn; [auto|now rewrite IH]. }
    replace (n <=? ignored) with false by (symmetry; apply Nat.leb_gt; lia). replace (n - ignored) with N by lia.
    assert (SUB : exists sub, match ign with None => Ok (subIndices st) | Some f => numberLoop f 0 n 0 (resize n None (subIndices st)) end = Ok sub /\
      (forall i, i < n -> keep g i = true -> reduced ign sub i = Ok (rank g i)) /\
      match g with None => sub = subIndices st | Some _ => length sub = n /\ forall i, i < n -> nth i sub None = if keep g i then Some (rank g i) else nth i (subIndices st) None end).
    { destruct g as [v|]; unfold ign; cbn [fits] in FI.
      - destruct (numberLoop_ok v n 0 (resize n None (subIndices st))) as (sub & E1 & L & H); [lia|rewrite resize_length; lia|]. exists sub. rewrite resize_length in L. split; [exact E1|].
        assert (H' : forall i, i < n -> nth i sub None = if keep (Some v) i then Some (rank (Some v) i) else nth i (subIndices st) None).
        { intros i Hi. rewrite H. cbn [Nat.leb andb]. replace (i <? 0 + n) with true by (symmetry; apply Nat.ltb_lt; lia). cbn [andb]. destruct (keep (Some v) i); auto. apply nth_resize; auto. }
        split; [|split; auto]. intros i Hi K. cbn [reduced]. rewrite (nth_error_nth' _ None) by lia. rewrite H', K by auto. auto.
      - exists (subIndices st). split; auto. split; auto. intros i Hi _. cbn [reduced]. f_equal. unfold rank, kept. cbn [isIgnored negb]. clear. replace (filter _ _) with (seq 0 i); [now rewrite seq_length|]. symmetry. generalize (seq 0 i). induction l as [|x l IH]; cbn; [auto|now rewrite IH]. }
    destruct SUB as (sub & ES & RD & SUB). rewrite ES. cbn [obind]. clear ES.
    assert (GD : Forall (good1 ign sub (pick g) (rank g) N) calls).
    { apply Forall_forall. intros [[a r] c] I. apply CA, BD in I. destruct I as [Hr Hc]. unfold good1. split.
      - unfold visited, pick, keep, ign. destruct g as [v|]; cbn [fits isIgnored] in *; [|reflexivity]. rewrite !(nth_error_nth' _ false) by lia. destruct (nth r (entries v) false); cbn [negb andb]; auto. destruct (nth c (entries v) false); cbn [negb andb]; auto.
      - unfold pick. rewrite !andb_true_iff. intros [[K1 K2] _]. rewrite !RD by auto. split; auto. split; auto. apply (rank_lt g r n); auto. }
    destruct (countLoop_ok ign sub (pick g) (rank g) N calls GD (repeat 0 (S N)) (repeat_length _ _)) as (ap & EC & LC & Z & HC). rewrite EC. cbn [obind].
    set (EE := picked (pick g) (rank g) calls) in *.
    assert (HC' : forall k, k < N -> nth (S k) ap 0 = length (rowOf k EE)). { intros k K. rewrite HC by auto. replace (nth (S k) (repeat 0 (S N)) 0) with 0; auto. symmetry. clear. revert k. assert (RZ : forall m k, nth k (repeat 0 m) 0 = 0) by (induction m as [|m IH]; intros [|k]; cbn; auto). intros; apply RZ. }
    assert (ST0 : start EE 0 = 0) by (unfold start; clear; induction EE as [|e EE IH]; cbn; auto).
    destruct (accumulate_ok (start EE) N 0 (upd ap 0 0)) as (LA & _ & HA).
    { rewrite upd_length. auto. } { rewrite nth_upd_eq by lia. auto. } { intros k K _. rewrite nth_upd_ne by lia. rewrite HC' by lia. apply start_S. }
    set (ap2 := accumulate 0 N (upd ap 0 0)) in *. rewrite upd_length, LC in LA.
    destruct (fillLoop_ok ign sub (pick g) (rank g) N EE ap2 ltac:(intros; apply HA; lia) calls nil (repeat 0 N) (repeat None (length (filter (fun e => snd (fst e) <=? snd e) calls))) (repeat None (length (filter (fun e => snd (fst e) <=? snd e) calls)))) as (ai & ax & EF & L1 & L2 & W1 & W2).
    { auto. } { reflexivity. } { apply repeat_length. } { intros k K. clear. change (length (rowOf k nil)) with 0. revert k. induction N as [|m IH]; intros [|k]; cbn [repeat nth]; auto. }
    { rewrite repeat_length. apply picked_length. } { now rewrite !repeat_length. } { intros k q e H. destruct q; discriminate. } { intros k q e H. destruct q; discriminate. }
    rewrite EF. cbn [obind fst snd]. rewrite repeat_length in L1, L2. exists (Csc N ap2 ai ax). eexists. split; [reflexivity|]. cbn [factor nIsZero subIndices cN]. split; auto. split; auto.
    assert (CK : forall k, k < N -> column (Csc N ap2 ai ax) k = rowOf k EE).
    { intros k K. unfold column. cbn [cp ci cx]. rewrite !HA by lia. rewrite start_S. replace (start EE k + length (rowOf k EE) - start EE k) with (length (rowOf k EE)) by lia.
      apply flat_map_seq. intros q [l a] Q. pose proof (W1 _ _ _ Q) as X1. pose proof (W2 _ _ _ Q) as X2. cbn [fst snd] in X1, X2. apply (nth_error_nth _ _ None) in X1, X2. rewrite X1, X2. auto. }
    assert (RIN : forall k l a, In (l, a) (rowOf k EE) <-> exists r c, At t r c a /\ r < n /\ c < n /\ r <= c /\ keep g r = true /\ keep g c = true /\ k = rank g r /\ l = rank g c).
    { intros k l a. rewrite rowOf_in. unfold EE. rewrite picked_in. unfold pick. split.
      - intros (r & c & I & P & -> & ->). rewrite !andb_true_iff, Nat.leb_le in P. apply CA in I. destruct (BD _ _ _ I). exists r, c. tauto.
      - intros (r & c & H & _ & _ & LE & K1 & K2 & -> & ->). exists r, c. rewrite CA, K1, K2. apply Nat.leb_le in LE. rewrite LE. auto. }
    assert (RS : forall k, StronglySorted lt (map fst (rowOf k EE))) by (intros; apply rowOf_sorted, picked_sorted, SS).
    split; [|split; [auto|split; [|exact SUB]]].
    - unfold legal. cbn [cN cp ci cx]. split; [auto|]. split; [rewrite HA by lia; auto|]. split; [rewrite HA by lia; pose proof (start_le EE N); pose proof (picked_length g (rank g) calls); unfold EE in *; lia|]. split; [congruence|].
      intros k K. rewrite !HA, CK by lia. rewrite start_S. split; [lia|]. split; [lia|]. split; [split; [apply RS|]|]; apply Forall_forall; intros l I; apply in_map_iff in I; destruct I as ([l' a] & <- & I); apply RIN in I; destruct I as (r & c & _ & Hr & Hc & LE & K1 & K2 & -> & ->); cbn [fst].
      + apply (rank_lt g c n); auto.
      + apply rank_mono. auto.
    - intros i j H. unfold meaning. rewrite (Nat.min_comm j i), (Nat.max_comm j i), Nat.min_l, Nat.max_r by lia. split; auto. rewrite CK by lia.
      destruct (kept_rank g n i ltac:(unfold N in *; lia)) as (I1 & I2 & I3). destruct (kept_rank g n j ltac:(unfold N in *; lia)) as (J1 & J2 & J3). set (r := nth i (kept g n) 0) in *. set (c := nth j (kept g n) 0) in *.
      assert (LE : r <= c) by (destruct (Nat.le_gt_cases r c) as [?|GT]; auto; pose proof (rank_lt g c r GT J2); lia).
      destruct (DE r c I1 J1) as [AT|[Z0 NA]].
      + apply denrow_in; [apply ssorted_NoDup; auto|]. apply RIN. exists r, c. repeat split; auto.
      + rewrite Z0. apply denrow_notin. intros I. apply in_map_iff in I. destruct I as ([l a] & Q & I). cbn in Q. subst l. apply RIN in I. destruct I as (r' & c' & AT & _ & _ & _ & K1 & K2 & Q1 & Q2).
        assert (r' = r) by (apply (rank_inj g); auto; congruence). assert (c' = c) by (apply (rank_inj g); auto; congruence). subst r' c'. apply (NA a AT).
  Qed.

  (** ** Solving *)
  Definition target (sub : list (option nat)) (i : nat) : option (option nat) := if length sub =? 0 then Some (Some i) else nth_error sub i.
  Section Copy.
    Variables (g : option (@vtree bool)) (n : nat) (sub : list (option nat)).
    Hypothesis T : forall i, i < n -> target sub i = Some (if keep g i then Some (rank g i) else None).
    Lemma copyIn_ok l : forall s bp, s + length l <= n -> length bp = length (kept g n) ->
      exists bp', copyIn sub (combine l (seq s (length l))) bp = Ok bp' /\ length bp' = length bp /\
        forall i, i < n -> keep g i = true -> nth (rank g i) bp' r0 = if (s <=? i) && (i <? s + length l) then nth (i - s) l r0 else nth (rank g i) bp r0.
    Proof.
      induction l as [|a l IH]; intros s bp LS LB; cbn [length seq combine copyIn].
      - exists bp. split; auto. split; auto. intros i Hi K. destruct (Nat.leb_spec s i), (Nat.ltb_spec i (s + 0)); auto; lia.
      - cbn [length] in LS. pose proof (T s ltac:(lia)) as Ts. unfold target in Ts.
        assert (EQ : copyIn sub ((a, s) :: combine l (seq (S s) (length l))) bp = copyIn sub (combine l (seq (S s) (length l))) (if keep g s then upd bp (rank g s) a else bp)).
        { cbn [copyIn]. destruct (keep g s) eqn:K.
          - assert (RL : rank g s < length bp) by (rewrite LB; apply (rank_lt g s n); auto; lia). apply Nat.ltb_lt in RL. destruct (length sub =? 0); [injection Ts as Q; rewrite <- Q in RL |- *; rewrite RL; auto|rewrite Ts, RL; auto].
          - destruct (length sub =? 0); [discriminate|rewrite Ts; auto]. }
        change (exists bp', copyIn sub ((a, s) :: combine l (seq (S s) (length l))) bp = Ok bp' /\ length bp' = length bp /\ forall i, i < n -> keep g i = true -> nth (rank g i) bp' r0 = if (s <=? i) && (i <? s + S (length l)) then nth (i - s) (a :: l) r0 else nth (rank g i) bp r0).
        rewrite EQ. destruct (IH (S s) (if keep g s then upd bp (rank g s) a else bp)) as (bp' & E & L & H); [lia|destruct (keep g s); rewrite ?upd_length; auto|]. exists bp'. split; auto. split; [rewrite L; destruct (keep g s); rewrite ?upd_length; auto|].
        intros i Hi K. rewrite H by auto. destruct (Nat.eq_dec i s) as [Q|Q].
        + subst i. replace (S s <=? s) with false by (symmetry; apply Nat.leb_gt; lia). replace (s <=? s) with true by (symmetry; apply Nat.leb_le; lia). replace (s <? s + S (length l)) with true by (symmetry; apply Nat.ltb_lt; lia). cbn [andb]. rewrite K, Nat.sub_diag. cbn [nth]. apply nth_upd_eq. rewrite LB. apply (rank_lt g s n); auto.
        + replace (S s <=? i) with (s <=? i) by (destruct (Nat.leb_spec s i), (Nat.leb_spec (S s) i); auto; lia). replace (S s + length l) with (s + S (length l)) by lia. destruct ((s <=? i) && (i <? s + S (length l))) eqn:B.
          * rewrite andb_true_iff, Nat.leb_le in B. replace (i - s) with (S (i - S s)) by lia. reflexivity.
          * destruct (keep g s) eqn:KS; auto. apply nth_upd_ne. intros C. apply Q. symmetry. apply (rank_inj g); auto.
    Qed.
    Lemma copyOut_ok xp l : length xp = length (kept g n) -> forall s, s + length l <= n ->
      exists l', copyOut sub xp (combine l (seq s (length l))) = Ok l' /\ length l' = length l /\
        forall q, q < length l -> nth q l' r0 = if keep g (s + q) then nth (rank g (s + q)) xp r0 else nth q l r0.
    Proof.
      intros LX. induction l as [|a l IH]; intros s LS; cbn [length seq combine copyOut].
      - exists nil. split; auto. split; auto. intros q Q; lia.
      - cbn [length] in LS. pose proof (T s ltac:(lia)) as Ts. unfold target in Ts. set (v := if keep g s then nth (rank g s) xp r0 else a).
        match goal with |- context [obind ?o _] => assert (EQ : o = Ok v) end.
        { unfold v. destruct (keep g s) eqn:K.
          - assert (RL : rank g s < length xp) by (rewrite LX; apply (rank_lt g s n); auto; lia). pose proof (nth_error_nth' xp r0 RL) as NX. destruct (length sub =? 0); [injection Ts as Q; rewrite <- Q in NX |- *; rewrite NX; auto|rewrite Ts, NX; auto].
          - destruct (length sub =? 0); [discriminate|rewrite Ts; auto]. }
        rewrite EQ. cbn [obind]. destruct (IH (S s)) as (l' & E & L & H); [lia|]. rewrite E. cbn [obind]. exists (v :: l'). split; auto. split; [cbn; congruence|].
        intros [|q] Q; cbn [nth]; [rewrite Nat.add_0_r; reflexivity|]. replace (s + S q) with (S s + q) by lia. apply H. cbn in Q. lia.
    Qed.
  End Copy.
  Lemma skipskip {X} a b (l : list X) : skipn a (skipn b l) = skipn (b + a) l.
  Proof. revert l. induction b as [|b IH]; intros l; cbn [Nat.add]; auto. destruct l; cbn [skipn]; [now destruct a|apply IH]. Qed.
  Lemma rebuild_ok {X} (v : @vtree X) : forall l, length (entries v) <= length l -> entries (fst (rebuild v l)) = firstn (length (entries v)) l /\ snd (rebuild v l) = skipn (length (entries v)) l /\ shape (fst (rebuild v l)) = shape v.
  Proof.
    induction v as [a|c IH] using vtree_ind'; intros l L.
    - destruct l; cbn in *; [lia|auto].
    - cbn [rebuild entries shape]. match goal with |- context [?go c l] => set (rec := go) end.
      assert (G : forall c, Forall (fun v => forall l, length (entries v) <= length l -> entries (fst (rebuild v l)) = firstn (length (entries v)) l /\ snd (rebuild v l) = skipn (length (entries v)) l /\ shape (fst (rebuild v l)) = shape v) c ->
        forall l, length (flat_map entries c) <= length l -> flat_map entries (fst (rec c l)) = firstn (length (flat_map entries c)) l /\ snd (rec c l) = skipn (length (flat_map entries c)) l /\ map shape (fst (rec c l)) = map shape c).
      { clear. induction c as [|x t IHt]; intros F l L; [cbn; auto|]. inversion F as [|? ? HX HT]; subst. cbn [flat_map] in *. rewrite app_length in *.
        assert (E : rec (x :: t) l = let '(x', l1) := rebuild x l in let '(t', l2) := rec t l1 in (x' :: t', l2)) by reflexivity. rewrite E.
        destruct (HX l ltac:(lia)) as (H1 & H2 & H3). destruct (rebuild x l) as [x' l1]. cbn [fst snd] in *. subst l1.
        destruct (IHt HT (skipn (length (entries x)) l)) as (G1 & G2 & G3); [rewrite skipn_length; lia|]. destruct (rec t (skipn (length (entries x)) l)) as [t' l2]. cbn [fst snd] in *. cbn [flat_map map]. rewrite H1, G1, H3, G3, G2. split; [|split; auto].
        - rewrite <- (firstn_skipn (length (entries x)) l) at 3. rewrite firstn_app, firstn_firstn, Nat.min_r by lia. rewrite firstn_length_le by lia. do 2 f_equal. lia.
        - rewrite skipskip. reflexivity. }
      destruct (G c IH l L) as (G1 & G2 & G3). destruct (rec c l) as [c' l']. cbn [fst snd entries shape] in *. rewrite G3. auto.
  Qed.
  Lemma lsum_nth (f : nat -> R) l : lsum (map f l) = sum (length l) (fun j => f (nth j l 0)).
  Proof.
    rewrite <- (lsum_seq (length l) (fun j => f (nth j l 0))). f_equal. rewrite <- (map_map (fun j => nth j l 0) f). f_equal. symmetry. clear.
    apply (nth_ext _ _ 0 0); [now rewrite map_length, seq_length|]. intros k K. rewrite map_length, seq_length in K. rewrite (nth_indep _ 0 (nth 0 l 0)) by (now rewrite map_length, seq_length). rewrite (map_nth (fun j => nth j l 0) (seq 0 (length l)) 0 k). rewrite seq_nth; auto.
  Qed.
  (** setMatrix(matrix, ignore) then apply(x, b): the ignored entries of x are untouched, the others solve the system restricted to the dofs that are not ignored *)
  Theorem C63_solve csolve st (t : @mtree R) n A g x b res : Dim t n n -> ordered t -> dense t n A -> (forall i j, i < n -> j < n -> A i j = A j i) -> fits g n -> kept g n <> nil -> ready st g ->
    length (entries x) = n -> length (entries b) = n -> vsize x = vsize b ->
    (forall M st', setMatrix st t g = Ok st' -> factor st' = Some M -> solves csolve M) ->
    exists st' x', setMatrix st t g = Ok st' /\ apply csolve st' x b res = Ok (x', (1, true)) /\ shape x' = shape x /\
      (forall i, i < n -> isIgnored g i = true -> nth i (entries x') r0 = nth i (entries x) r0) /\
      (forall i, i < n -> isIgnored g i = false -> lsum (map (fun j => rmul (A i j) (nth j (entries x') r0)) (kept g n)) = nth i (entries b) r0).
  Proof.
    intros D O DE SY FI NE RD LX LB VS CS. destruct (C63_matrix st t n A g D O DE FI NE) as (M & st' & ES & FM & NZ & _ & NM & MN & SB). specialize (CS M st' ES FM).
    exists st'. unfold apply. rewrite NZ, VS, Nat.eqb_refl. cbn [negb]. rewrite FM, !fvfe_entries.
    assert (NP : 0 < n) by (destruct n; [cbn in NE; congruence|lia]).
    assert (T : forall i, i < n -> target (subIndices st') i = Some (if keep g i then Some (rank g i) else None)).
    { intros i Hi. unfold target. destruct g as [v|].
      - destruct SB as [SL SN]. replace (length (subIndices st') =? 0) with false by (symmetry; apply Nat.eqb_neq; lia). rewrite (nth_error_nth' _ None) by lia. rewrite SN by auto. f_equal. destruct (keep (Some v) i) eqn:K; auto. cbn [ready] in RD. apply RD. unfold keep, isIgnored in K. now apply negb_false_iff in K.
      - cbn [ready] in RD. rewrite SB, RD. cbn [length Nat.eqb]. do 2 f_equal. unfold rank, kept. cbn [isIgnored negb]. clear. replace (filter _ _) with (seq 0 i); [now rewrite seq_length|]. symmetry. generalize (seq 0 i). induction l as [|y l IH]; cbn; [auto|now rewrite IH]. }
    destruct (copyIn_ok g n (subIndices st') T (entries b) 0 (repeat r0 (cN M))) as (b2 & E1 & L1 & H1); [lia|rewrite repeat_length; auto|]. rewrite E1. cbn [obind]. rewrite repeat_length in L1.
    destruct (CS b2 L1) as [L2 H2].
    destruct (copyOut_ok g n (subIndices st') T (csolve M b2) (entries x) ltac:(congruence) 0 ltac:(lia)) as (l & E2 & L3 & H3). rewrite E2. cbn [obind].
    destruct (rebuild_ok x l ltac:(lia)) as (R1 & _ & R3). rewrite firstn_all2 in R1 by lia. exists (fst (rebuild x l)). split; auto. split; auto. split; auto. rewrite R1.
    assert (XK : forall k, k < cN M -> nth (nth k (kept g n) 0) l r0 = vget (csolve M b2) k).
    { intros k K. destruct (kept_rank g n k ltac:(lia)) as (K1 & K2 & K3). rewrite H3 by lia. cbn [Nat.add]. rewrite K2, K3. reflexivity. }
    split.
    - intros i Hi IG. rewrite H3 by lia. cbn [Nat.add]. unfold keep. rewrite IG. auto.
    - intros i Hi IG. assert (KI : keep g i = true) by (unfold keep; now rewrite IG). assert (RL : rank g i < cN M) by (rewrite NM; apply (rank_lt g i n); auto). pose proof (nth_kept g n i Hi KI) as NI.
      specialize (H2 (rank g i) RL). unfold vget at 2 in H2. rewrite H1 in H2 by auto. cbn [Nat.leb andb] in H2. rewrite Nat.add_0_l, Nat.sub_0_r in H2. replace (i <? length (entries b)) with true in H2 by (symmetry; apply Nat.ltb_lt; lia). rewrite <- H2.
      rewrite lsum_nth, <- NM. apply sum_ext. intros j J. rewrite XK by auto. f_equal. destruct (kept_rank g n j ltac:(lia)) as (J1 & _ & _).
      destruct (Nat.le_ge_cases (rank g i) j) as [LE|LE].
      + destruct (MN (rank g i) j ltac:(lia)) as [Q _]. rewrite Q, NI. auto.
      + destruct (MN j (rank g i) ltac:(lia)) as [Q1 Q2]. rewrite Q2, Q1, NI. apply SY; auto.
  Qed.
  (** a new object, and an object whose earlier ignore fields ignored at least what the new one ignores, are ready *)
  Theorem C63_ready : (forall g, ready init g) /\
    (forall st (t : @mtree R) st', ready st None -> setMatrix st t None = Ok st' -> ready st' None) /\
    (forall st (t : @mtree R) n A v v' st', Dim t n n -> ordered t -> dense t n A -> length (entries v) = n -> length (entries v') = n -> (forall i, nth i (entries v') false = true -> nth i (entries v) false = true) ->
      ready st (Some v) -> setMatrix st t (Some v) = Ok st' -> ready st' (Some v')).
  Proof.
    split; [|split].
    - intros [v|]; cbn; auto. intros i _. now destruct i.
    - intros st t st' RD E. cbn [ready] in *. unfold setMatrix in E. apply obind_Ok in E. destruct E as ([calls [fr fc]] & _ & E). destruct (fr <=? 0); [injection E as <-; auto|]. cbn [obind] in E. apply obind_Ok in E. destruct E as (ap & _ & E). apply obind_Ok in E. destruct E as (aa & _ & E). injection E as <-. auto.
    - intros st t n A v v' st' D O DE L L' SUB RD E. destruct (kept (Some v) n) eqn:KE.
      + unfold setMatrix in E. destruct (all_good t n n D) as [BD G]. destruct (G 0 0) as (calls & E0 & _). rewrite E0 in E. cbn [obind] in E. rewrite flat_ignore in E. pose proof (ignored_count v n ltac:(lia)) as IC. rewrite KE, firstn_all2 in IC by lia. cbn [length] in IC.
        replace (n <=? length (filter (fun b => b) (entries v))) with true in E by (symmetry; apply Nat.leb_le; lia). injection E as <-. cbn [ready subIndices] in *. auto.
      + destruct (C63_matrix st t n A (Some v) D O DE L ltac:(congruence)) as (M & st2 & ES & _ & _ & _ & _ & _ & SL & SN). rewrite E in ES. injection ES as <-. cbn [ready] in *. intros i Hi. assert (HV := SUB i Hi).
        assert (i < n). { destruct (Nat.lt_ge_cases i n); auto. rewrite nth_overflow in Hi by lia. discriminate. } rewrite SN by auto. unfold keep, isIgnored. rewrite HV. cbn [negb]. auto.
  Qed.
  (** all dofs ignored: setMatrix factorises nothing, apply changes neither x nor the result record *)
  Theorem C63_nothing st (t : @mtree R) n g : Dim t n n -> fits g n -> kept g n = nil ->
    exists st', setMatrix st t g = Ok st' /\ factor st' = factor st /\ leaked st' = leaked st /\ forall csolve x b res, apply csolve st' x b res = Ok (x, res).
  Proof.
    intros D FI KE. unfold setMatrix. destruct (all_good t n n D) as [BD G]. destruct (G 0 0) as (calls & E0 & _). rewrite E0. cbn [obind].
    match goal with |- context [n <=? ?k] => replace (n <=? k) with true end; [eexists; split; [reflexivity|]; cbn; auto|]. symmetry. apply Nat.leb_le. destruct g as [v|].
    - rewrite flat_ignore. cbn [fits] in FI. pose proof (ignored_count v n ltac:(lia)) as IC. rewrite KE, firstn_all2 in IC by lia. cbn [length] in IC. lia.
    - destruct n; auto. exfalso. rewrite kept_S in KE. cbn [keep isIgnored negb] in KE. destruct (kept None n); discriminate.
  Qed.
  (** vectors of different outermost size are rejected; without a matrix apply dereferences the null pointer *)
  Theorem C63_rejects csolve st x b res : (nIsZero st = false -> vsize x <> vsize b -> apply csolve st x b res = Throw EISTL) /\ (vsize x = vsize b -> apply csolve init x b res = UB).
  Proof.
    split; [intros Z H; unfold apply; rewrite Z; apply Nat.eqb_neq in H; rewrite H; auto|]. intros H. unfold apply. cbn [init nIsZero factor]. rewrite H, Nat.eqb_refl. auto.
  Qed.
  (** Deviation: a second matrix drops the factorisation of the first one without releasing it; the destructor releases only the last *)
  Theorem C63_leak_refuted st (t : @mtree R) g st' M : factor st = Some M -> setMatrix st t g = Ok st' -> nIsZero st' = false -> destroy st' = S (destroy st).
  Proof.
    intros F E Z. unfold setMatrix in E. apply obind_Ok in E. destruct E as ([calls [fr fc]] & _ & E). match type of E with (if ?c then _ else _) = _ => destruct c end; [injection E as <-; discriminate|].
    apply obind_Ok in E. destruct E as (sub & _ & E). apply obind_Ok in E. destruct E as (ap & _ & E). apply obind_Ok in E. destruct E as (aa & _ & E). injection E as <-. unfold destroy. cbn [leaked]. now rewrite F.
  Qed.
  (** a solver that was given one matrix only releases everything *)
  Theorem C63_no_leak (t : @mtree R) g st' : destroy init = 0 /\ (setMatrix init t g = Ok st' -> destroy st' = 0).
  Proof.
    split; [reflexivity|]. intros E. unfold setMatrix in E. apply obind_Ok in E. destruct E as ([calls [fr fc]] & _ & E). match type of E with (if ?c then _ else _) = _ => destruct c end; [injection E as <-; reflexivity|].
    apply obind_Ok in E. destruct E as (sub & _ & E). apply obind_Ok in E. destruct E as (ap & _ & E). apply obind_Ok in E. destruct E as (aa & _ & E). injection E as <-. reflexivity.
  Qed.
End Cholmod.

From Coq Require Import ZArith.
From Verif Require Import RingInst.
(** ** Examples *)
Section Examples.
  Local Open Scope Z_scope.
  Notation mt := (@mtree Zring).
  Let zs (a : Z) : mt := @MScalar Zring a.
  (** the 4 x 4 matrix [[2,5,0,1],[5,9,0,0],[0,0,3,0],[1,0,0,1]] as a BCRSMatrix of 2 x 2 blocks *)
  Let T4 : mt := MSparse 2 [[(0%nat, MDense [[zs 2; zs 5]; [zs 5; zs 9]]); (1%nat, MDense [[zs 0; zs 1]; [zs 0; zs 0]])]; [(0%nat, MDense [[zs 0; zs 0]; [zs 1; zs 0]]); (1%nat, MDense [[zs 3; zs 0]; [zs 0; zs 1]])]] (MDense [[zs 0; zs 0]; [zs 0; zs 0]]).
  Let vec4 (a b c d : Z) : @vtree Zring := VNode [VNode [@VScalar Zring a; @VScalar Zring b]; VNode [@VScalar Zring c; @VScalar Zring d]].
  Let ign4 : @vtree bool := VNode [VNode [VScalar false; VScalar true]; VNode [VScalar true; VScalar false]].
  (** a solver for 2 x 2 systems of determinant 1 *)
  Let solve2 (M : @csc Zring) (b : list Z) : list Z :=
    let m := @meaning Zring M in [m 1%nat 1%nat * nth 0 b 0 - m 0%nat 1%nat * nth 1 b 0; m 0%nat 0%nat * nth 1 b 0 - m 1%nat 0%nat * nth 0 b 0].
  Example C63_matrix_nonvacuous : exists st', setMatrix (@init Zring) T4 (Some ign4) = Ok st' /\ subIndices st' = [Some 0%nat; None; None; Some 1%nat] /\
    factor st' = Some (@Csc Zring 2 [0; 2; 3]%nat [Some 0%nat; Some 1%nat; Some 1%nat; None; None; None; None; None; None; None] [Some 2; Some 1; Some 1; None; None; None; None; None; None; None]).
  Proof. eexists. split; [reflexivity|]. split; [reflexivity|]. cbn [factor]. vm_compute. reflexivity. Qed.
  Example C63_solve_nonvacuous : exists st' x', setMatrix (@init Zring) T4 (Some ign4) = Ok st' /\ apply solve2 st' (vec4 100 200 300 400) (vec4 3 8 8 7) (0%nat, false) = Ok (x', (1%nat, true)) /\
    entries x' = [-4; 200; 300; 11] /\ 2 * -4 + 1 * 11 = 3 /\ 1 * -4 + 1 * 11 = 7 /\ (forall M, factor st' = Some M -> solves solve2 M) /\ kept (Some ign4) 4 = [0; 3]%nat.
  Proof.
    eexists. eexists. split; [reflexivity|]. split; [reflexivity|]. repeat split.
    - cbn in H. injection H as <-. cbn in *. destruct b as [|b0 [|b1 [|]]]; try discriminate; reflexivity.
    - cbn in H. injection H as <-. cbn [cN] in *. destruct b as [|b0 [|b1 [|]]]; try discriminate. intros [|[|i]] Hi; [| |lia]; cbn [sum]; unfold solve2, vget; cbn [nth]; change (@radd Zring) with Z.add; change (@rmul Zring) with Z.mul; change (@r0 Zring) with 0; repeat match goal with |- context [meaning ?m ?i ?j] => let v := eval vm_compute in (@meaning Zring m i j) in change (@meaning Zring m i j) with v end; lia.
  Qed.
  Example C63_hypotheses : Dim T4 4 4 /\ ordered T4 /\ fits (Some ign4) 4 /\ dense T4 4 (fun i j => nth j (nth i [[2; 5; 0; 1]; [5; 9; 0; 0]; [0; 0; 3; 0]; [1; 0; 0; 1]] []) 0).
  Proof.
    assert (DB : forall a b c d, Dim (MDense [[zs a; zs b]; [zs c; zs d]]) 2 2).
    { intros a b c d. apply (DimDense _ [1; 1]%nat [1; 1]%nat); try discriminate; auto.
      - intros [|[|i]] row H; cbn in H; try (injection H as <-; reflexivity). destruct i; discriminate.
      - intros [|[|i]] [|[|j]] row e H H'; cbn in H; try (destruct i; discriminate); injection H as <-; cbn in H'; try (destruct j; discriminate); injection H' as <-; constructor. }
    assert (D : Dim T4 4 4).
    { unfold T4. match goal with |- Dim (MSparse _ ?rows ?d) _ _ => pose proof (DimSparse 2 rows d 2 2) as X end. refine (X _ _ _ _).
      - intros row j b [<-|[<-|[]]] [[= <- <-]|[[= <- <-]|[]]]; split; auto.
      - auto.
      - intros row [<-|[<-|[]]]; repeat constructor; cbn; intuition discriminate.
      - auto. }
    split; auto. split; [|split; [reflexivity|]].
    - assert (OD : forall a b c d, ordered (MDense [[zs a; zs b]; [zs c; zs d]])) by (intros a b c d; constructor; intros row e [<-|[<-|[]]] [<-|[<-|[]]]; constructor).
      constructor; [intros row [<-|[<-|[]]]; repeat constructor|]. intros row j b [<-|[<-|[]]] [[= <- <-]|[[= <- <-]|[]]]; auto.
    - intros r c Hr Hc. destruct (all_good T4 4%nat 4%nat D) as [_ G]. destruct (G 0%nat 0%nat) as (calls & E & [CI _]). cbn in E. injection E as E.
      assert (CA : forall a r c, In (a, r, c) calls <-> At T4 r c a) by (intros; rewrite CI; apply (@at_shifted Zring)).
      left. rewrite <- CA, <- E. clear - Hr Hc. do 4 (destruct r as [|r]; [do 4 (destruct c as [|c]; [cbn; tauto|]); lia|]); lia.
  Qed.

  (** the identity of order 2 as a BCRSMatrix of numbers, and the solver for identity matrices *)
  Let I2 : mt := MSparse 2 [[(0%nat, zs 1)]; [(1%nat, zs 1)]] (zs 0).
  Let vec2 (a b : Z) : @vtree Zring := VNode [@VScalar Zring a; @VScalar Zring b].
  Let ign2 (a b : bool) : @vtree bool := VNode [VScalar a; VScalar b].
  Let solveI (M : @csc Zring) (b : list Z) : list Z := b.
  (** Deviation: setMatrix(A, ignore) followed by setMatrix(A): the index map of the first call stays in use, apply does not solve A x = b *)
  Theorem C63_stale_none_refuted : exists st1 st2 x', setMatrix (@init Zring) I2 (Some (ign2 true false)) = Ok st1 /\ setMatrix st1 I2 None = Ok st2 /\
    (forall M, factor st2 = Some M -> cN M = 2%nat /\ solves solveI M) /\ apply solveI st2 (vec2 7 7) (vec2 1 2) (0%nat, false) = Ok (x', (1%nat, true)) /\ entries x' = [7; 2].
  Proof.
    do 3 eexists. split; [reflexivity|]. split; [reflexivity|]. split; [|split; reflexivity]. intros M H. cbn in H. injection H as <-. split; [reflexivity|]. intros b L. split; [exact L|]. cbn in L. destruct b as [|b0 [|b1 [|]]]; try discriminate.
    intros i Hi. cbn [cN] in Hi. destruct i as [|[|i]]; [| |lia]; cbn [sum cN]; unfold solveI, vget; cbn [nth]; change (@radd Zring) with Z.add; change (@rmul Zring) with Z.mul; change (@r0 Zring) with 0; repeat match goal with |- context [meaning ?m ?i ?j] => let v := eval vm_compute in (@meaning Zring m i j) in change (@meaning Zring m i j) with v end; lia.
  Qed.
  (** Deviation: an ignore field that ignores a dof the previous one did not: the new field's ignored entry of x is overwritten and the other one is wrong *)
  Theorem C63_stale_ignore_refuted : exists st1 st2 x', setMatrix (@init Zring) I2 (Some (ign2 true false)) = Ok st1 /\ setMatrix st1 I2 (Some (ign2 false true)) = Ok st2 /\
    (forall M, factor st2 = Some M -> cN M = 1%nat /\ solves solveI M) /\ apply solveI st2 (vec2 7 7) (vec2 1 2) (0%nat, false) = Ok (x', (1%nat, true)) /\ entries x' = [2; 2].
  Proof.
    do 3 eexists. split; [reflexivity|]. split; [reflexivity|]. split; [|split; reflexivity]. intros M H. cbn in H. injection H as <-. split; [reflexivity|]. intros b L. split; [exact L|]. cbn in L. destruct b as [|b0 [|]]; try discriminate.
    intros i Hi. cbn [cN] in Hi. destruct i as [|i]; [|lia]; cbn [sum cN]; unfold solveI, vget; cbn [nth]; change (@radd Zring) with Z.add; change (@rmul Zring) with Z.mul; change (@r0 Zring) with 0; repeat match goal with |- context [meaning ?m ?i ?j] => let v := eval vm_compute in (@meaning Zring m i j) in change (@meaning Zring m i j) with v end; lia.
  Qed.
End Examples.
