(** * Model of Dune::BCRSMatrix: memory layout, build modes, copying (dune/istl/bcrsmatrix.hh)

    Values (blocks) are an abstract type [V].  Sizes are [nat].
    Column index arrays live in a heap because [j_] is a shared_ptr that several matrices may share
    (bcrsmatrix.hh:2060-2062); value arrays are owned by one matrix.
    Not modelled: allocator objects, reference counts (arrays are never freed, so a stale pointer to a
    freed array cannot be observed), output to dwarn, DUNE_ISTL_WITH_CHECKING checks unless stated. *)
From Coq Require Import List Arith Bool Lia.
From Verif Require Import Sums Outcome.
Import ListNotations.

Section Bcrs.
  Context {V : Type}.
  (** [dv]: what a freshly allocated array slot holds; [zv]: a value-initialised block [B()]. *)
  Variables dv zv : V.

  (** BuildMode (bcrsmatrix.hh:427-465) *)
  Inductive bmode := Row_wise | Random | Implicit | Unknown.
  (** BuildStage (bcrsmatrix.hh:467-484) *)
  Inductive bstage := NotAllocated | Building | RowSizesBuilt | Built.

  (** index pointer of a row window: null, into the matrix' long array, or a row's own array *)
  Inductive jptr := JNull | JArr (off : nat) | JOwn (l : list nat).
  (** value pointer of a row window *)
  Inductive aptr := ANull | AArr (off : nat) | AOwn (l : list V).

  (** CompressedBlockVectorWindow: size, p, j (bvector.hh:993-1130) *)
  Record row := mkrow { rsize : nat; rj : jptr; ra : aptr }.

  (** Data members of BCRSMatrix (bcrsmatrix.hh:2046-2079).  [mrows] is the array [r] (empty list =
      null pointer), [madata] the array [a], [mjid] the shared [j_] (an index into the heap).
      compressionBufferSize_ is a nonnegative rational p/q, [None] when negative ("not set"). *)
  Record mat := mkmat {
    mmode : bmode; mstage : bstage;
    mn : nat; mm : nat; mnnz : nat; masize : nat;
    mrows : list row; madata : option (list V); mjid : option nat;
    mavg : nat; mcbs : option (nat * nat);
    mover : list ((nat * nat) * V)
  }.

  Definition heap := list (list nat).
  Definition st := (heap * mat)%type.

  (** ** small array helpers *)
  Definition slice {A} (off len : nat) (l : list A) : list A := firstn len (skipn off l).
  Definition splice {A} (off : nat) (l' l : list A) : list A :=
    firstn off l ++ l' ++ skipn (off + length l') l.

  Definition set_stage M s := mkmat (mmode M) s (mn M) (mm M) (mnnz M) (masize M) (mrows M) (madata M) (mjid M) (mavg M) (mcbs M) (mover M).
  Definition set_mode M b := mkmat b (mstage M) (mn M) (mm M) (mnnz M) (masize M) (mrows M) (madata M) (mjid M) (mavg M) (mcbs M) (mover M).
  Definition set_rows M r := mkmat (mmode M) (mstage M) (mn M) (mm M) (mnnz M) (masize M) r (madata M) (mjid M) (mavg M) (mcbs M) (mover M).
  Definition set_nnz M k := mkmat (mmode M) (mstage M) (mn M) (mm M) k (masize M) (mrows M) (madata M) (mjid M) (mavg M) (mcbs M) (mover M).
  Definition set_adata M a := mkmat (mmode M) (mstage M) (mn M) (mm M) (mnnz M) (masize M) (mrows M) a (mjid M) (mavg M) (mcbs M) (mover M).
  Definition set_jid M j := mkmat (mmode M) (mstage M) (mn M) (mm M) (mnnz M) (masize M) (mrows M) (madata M) j (mavg M) (mcbs M) (mover M).
  Definition set_over M o := mkmat (mmode M) (mstage M) (mn M) (mm M) (mnnz M) (masize M) (mrows M) (madata M) (mjid M) (mavg M) (mcbs M) o.
  Definition set_params M av c := mkmat (mmode M) (mstage M) (mn M) (mm M) (mnnz M) (masize M) (mrows M) (madata M) (mjid M) av c (mover M).
  Definition set_sizes M n m nnz asz := mkmat (mmode M) (mstage M) n m nnz asz (mrows M) (madata M) (mjid M) (mavg M) (mcbs M) (mover M).

  (** the long index array of the matrix *)
  Definition jarr (h : heap) (M : mat) : option (list nat) :=
    match mjid M with Some k => nth_error h k | None => None end.
  Definition set_jarr (h : heap) (M : mat) (J : list nat) : heap :=
    match mjid M with Some k => upd h k J | None => h end.

  (** column indices seen through a row window; [None] = invalid memory access *)
  Definition row_idx (h : heap) (M : mat) (r : row) : option (list nat) :=
    if rsize r =? 0 then Some nil else
    match rj r with
    | JNull => None
    | JArr off => match jarr h M with
                  | Some J => if off + rsize r <=? length J then Some (slice off (rsize r) J) else None
                  | None => None
                  end
    | JOwn l => if rsize r <=? length l then Some (firstn (rsize r) l) else None
    end.

  (** values seen through a row window *)
  Definition row_val (M : mat) (r : row) : option (list V) :=
    if rsize r =? 0 then Some nil else
    match ra r with
    | ANull => None
    | AArr off => match madata M with
                  | Some a => if off + rsize r <=? length a then Some (slice off (rsize r) a) else None
                  | None => None
                  end
    | AOwn l => if rsize r <=? length l then Some (firstn (rsize r) l) else None
    end.

  (** what iteration over a row delivers: (index, value) pairs (basearray.hh:349-460) *)
  Definition row_view (h : heap) (M : mat) (r : row) : option (list (nat * V)) :=
    match row_idx h M r, row_val M r with
    | Some js, Some vs => Some (combine js vs)
    | _, _ => None
    end.

  Fixpoint map_opt {A B} (f : A -> option B) (l : list A) : option (list B) :=
    match l with
    | nil => Some nil
    | x :: t => match f x, map_opt f t with Some y, Some ys => Some (y :: ys) | _, _ => None end
    end.

  (** what iteration over the whole matrix delivers *)
  Definition view (s : st) : option (list (list (nat * V))) :=
    map_opt (row_view (fst s) (snd s)) (mrows (snd s)).

  (** ** allocation *)

  (** allocateData (bcrsmatrix.hh:2276-2289) *)
  Definition allocateData (M : mat) : res mat unit :=
    match madata M with
    | Some _ => RThrow M EInvalidState
    | None => ROk (set_adata M (if 0 <? masize M then Some (repeat dv (masize M)) else None)) tt
    end.

  (** allocate (bcrsmatrix.hh:2235-2274).  New index arrays hold unspecified contents (here 0). *)
  Definition allocate (s : st) (rows columns asz : nat) (allocRows allocData : bool) : res st unit :=
    let (h, M0) := s in
    let M1 := set_sizes M0 rows columns asz asz in
    let r1 : res st unit :=
      if allocRows then
        if 0 <? rows then
          match mrows M1 with
          | _ :: _ => RThrow (h, M1) EInvalidState
          | nil => ROk (h, set_rows M1 (repeat (mkrow 0 JNull ANull) rows)) tt
          end
        else ROk (h, set_rows M1 nil) tt
      else ROk (h, M1) tt in
    rbind r1 (fun s1 _ =>
      let (h1, M2) := s1 in
      let r2 := if allocData then
                  match allocateData M2 with
                  | ROk M3 _ => ROk (h1, M3) tt | RThrow M3 e => RThrow (h1, M3) e | RUB => RUB
                  end
                else ROk (h1, M2) tt in
      rbind r2 (fun s2 _ =>
        let (h2, M3) := s2 in
        let s3 : st :=
          if 0 <? masize M3 then
            match mjid M3 with
            | Some _ => (h2, M3)
            | None => (h2 ++ [repeat 0 (masize M3)], set_jid M3 (Some (length h2)))
            end
          else (h2, set_jid M3 None) in
        ROk (fst s3, set_stage (snd s3) Building) tt)).

  (** deallocate (bcrsmatrix.hh:2168-2217).  The first test [if (notAllocated) return;] tests an enum
      constant equal to 0 and never returns.  Note: neither [overflow] nor [allocationSize_] is cleared. *)
  Definition deallocate (s : st) (deallocateRows : bool) : st :=
    let (h, M) := s in
    let M1 :=
      if 0 <? masize M then set_adata (set_jid M None) None
      else set_rows M (map (fun r => if 0 <? rsize r then mkrow 0 JNull ANull else r) (mrows M)) in
    let M2 := if (0 <? mn M) && deallocateRows then set_rows M1 nil else M1 in
    (h, set_stage M2 NotAllocated).

  (** size of the overflow area, implicit_allocate (bcrsmatrix.hh:2306) *)
  Definition osize_of (n avg : nat) (cbs : nat * nat) : nat :=
    (n * avg * fst cbs) / snd cbs + 4 * avg.

  (** implicit_allocate (bcrsmatrix.hh:2295-2323) *)
  Definition implicit_allocate (s : st) (n m : nat) : res st unit :=
    let (h, M) := s in
    match mmode M with
    | Implicit =>
      match mstage M with
      | NotAllocated =>
        match mcbs M with
        | None => RThrow s EInvalidState
        | Some c =>
          let osize := osize_of n (mavg M) c in
          rbind (allocate s n m (n * mavg M + osize) true true) (fun s1 _ =>
            let (h1, M1) := s1 in
            ROk (h1, set_stage (set_rows M1
                   (map (fun i => mkrow 0 (JArr (osize + i * mavg M1)) (AArr (osize + i * mavg M1))) (seq 0 n)))
                   Building) tt)
        end
      | _ => RThrow s EInvalidState
      end
    | _ => RThrow s EInvalidState
    end.

  (** ** constructors and sizing *)

  (** default constructor (bcrsmatrix.hh:739-743) *)
  Definition mat_empty : mat :=
    mkmat Unknown NotAllocated 0 0 0 0 nil None None 0 None nil.

  (** constructors with known / unknown number of nonzeros (bcrsmatrix.hh:746-761);
      the unknown one is [nnz = 0] *)
  Definition mat_new (h : heap) (n m nnz : nat) (bm : bmode) : res st unit :=
    allocate (h, set_mode mat_empty bm) n m nnz true false.

  (** constructor for implicit mode (bcrsmatrix.hh:775-795) *)
  Definition mat_new_implicit (h : heap) (n m avg : nat) (cbs : option (nat * nat)) (bm : bmode) : res st unit :=
    let s := (h, set_params (set_mode mat_empty bm) avg cbs) in
    match bm with
    | Implicit => match cbs with None => RThrow s EBCRS | Some _ => implicit_allocate s n m end
    | _ => RThrow s EBCRS
    end.

  (** setBuildMode (bcrsmatrix.hh:830-841) *)
  Definition setBuildMode (s : st) (bm : bmode) : res st unit :=
    let (h, M) := s in
    match mstage M with
    | NotAllocated => ROk (h, set_mode M bm) tt
    | Building =>
      match mmode M, bm with
      | (Unknown | Random | Row_wise), (Row_wise | Random) => ROk (h, set_mode M bm) tt
      | _, _ => RThrow s EInvalidState
      end
    | _ => RThrow s EInvalidState
    end.

  (** setSize (bcrsmatrix.hh:858-877) *)
  Definition setSize (s : st) (rows columns nnz : nat) : res st unit :=
    let s1 := deallocate s true in
    match mmode (snd s1) with
    | Implicit => if 0 <? nnz then RThrow s1 EBCRS else implicit_allocate s1 rows columns
    | _ => allocate s1 rows columns nnz true false
    end.

  (** setImplicitBuildModeParameters (bcrsmatrix.hh:886-900) *)
  Definition setImplicitParams (s : st) (avg : nat) (cbs : option (nat * nat)) : res st unit :=
    match cbs with
    | None => RThrow s EBCRS
    | Some _ =>
      match mstage (snd s) with
      | NotAllocated => ROk (fst s, set_params (snd s) avg cbs) tt
      | _ => RThrow s EInvalidState
      end
    end.

  (** ** random build mode *)

  (** setrowsize (bcrsmatrix.hh:1114-1122); [r[i]] with i >= n is out of bounds *)
  Definition setrowsize (s : st) (i k : nat) : res st unit :=
    let (h, M) := s in
    match mmode M with
    | Random =>
      match mstage M with
      | Building =>
        match nth_error (mrows M) i with
        | Some r => ROk (h, set_rows M (upd (mrows M) i (mkrow k (rj r) (ra r)))) tt
        | None => RUB
        end
      | _ => RThrow s EBCRS
      end
    | _ => RThrow s EBCRS
    end.

  (** incrementrowsize (bcrsmatrix.hh:1135-1143) *)
  Definition incrementrowsize (s : st) (i k : nat) : res st unit :=
    let (h, M) := s in
    match mmode M with
    | Random =>
      match mstage M with
      | Building =>
        match nth_error (mrows M) i with
        | Some r => ROk (h, set_rows M (upd (mrows M) i (mkrow (rsize r + k) (rj r) (ra r)))) tt
        | None => RUB
        end
      | _ => RThrow s EBCRS
      end
    | _ => RThrow s EBCRS
    end.

  (** the sum of the row sizes, bcrsmatrix.hh:1153-1158 *)
  Fixpoint total_size (rs : list row) : nat :=
    match rs with nil => 0 | r :: t => rsize r + total_size t end.

  (** setColumnPointers (bcrsmatrix.hh:2106-2126) *)
  Fixpoint setColumnPointers (off : nat) (rs : list row) : list row :=
    match rs with
    | nil => nil
    | r :: t =>
      (if 0 <? rsize r then mkrow (rsize r) (JArr off) (ra r) else mkrow 0 JNull ANull)
        :: setColumnPointers (off + rsize r) t
    end.

  (** setDataPointers (bcrsmatrix.hh:2132-2148) *)
  Fixpoint setDataPointers (off : nat) (rs : list row) : list row :=
    match rs with
    | nil => nil
    | r :: t =>
      (if 0 <? rsize r then mkrow (rsize r) (rj r) (AArr off) else mkrow 0 JNull ANull)
        :: setDataPointers (off + rsize r) t
    end.

  (** endrowsizes (bcrsmatrix.hh:1146-1175) *)
  Definition endrowsizes (s : st) : res st unit :=
    let (h, M) := s in
    match mmode M with
    | Random =>
      match mstage M with
      | Building =>
        let total := total_size (mrows M) in
        let r1 := if mnnz M =? 0 then allocate s (mn M) (mm M) total false false
                  else if mnnz M <? total then RThrow s EBCRS else ROk s tt in
        rbind r1 (fun s1 _ =>
          let (h1, M1) := s1 in
          let M2 := set_rows M1 (setColumnPointers 0 (mrows M1)) in
          if mnnz M2 =? 0 then ROk (h1, set_stage M2 RowSizesBuilt) tt
          else match jarr h1 M2 with
               | Some J =>
                 if mnnz M2 <=? length J then
                   ROk (set_jarr h1 M2 (splice 0 (repeat (mm M2) (mnnz M2)) J), set_stage M2 RowSizesBuilt) tt
                 else RUB
               | None => RUB
               end)
      | _ => RThrow s EBCRS
      end
    | _ => RThrow s EBCRS
    end.

  (** std::lower_bound on a range: number of leading elements < x; it requires the range to be
      partitioned, otherwise the result is unspecified ([None]). *)
  Fixpoint part_point (l : list nat) (x : nat) : nat :=
    match l with nil => 0 | y :: t => if y <? x then S (part_point t x) else 0 end.
  Definition lower_bound (l : list nat) (x : nat) : option nat :=
    let p := part_point l x in
    if forallb (fun y => negb (y <? x)) (skipn p l) then Some p else None.

  (** addindex on the slots of one row (bcrsmatrix.hh:1203-1222): [l] = slots [first,last) *)
  Definition add_slot (m col : nat) (l : list nat) : outcome (list nat) :=
    match lower_bound l col with
    | None => UB
    | Some pos =>
      if (match nth_error l pos with Some c => c =? col | None => false end) then Ok l
      else match lower_bound (skipn pos l) m with
           | None => UB
           | Some d =>
             let fin := pos + d in
             if fin =? length l then Throw EBCRS
             else (* copy_backward(pos,end,end+1); *pos = col *)
               Ok (firstn pos l ++ col :: slice pos d l ++ skipn (S fin) l)
           end
    end.

  (** addindex (bcrsmatrix.hh:1188-1223) *)
  Definition addindex (s : st) (i col : nat) : res st unit :=
    let (h, M) := s in
    match mmode M with
    | Random =>
      match mstage M with
      | RowSizesBuilt =>
        if mm M <=? col then RThrow s EBCRS
        else match nth_error (mrows M) i with
             | None => RUB
             | Some r =>
               match row_idx h M r with
               | None => RUB
               | Some l =>
                 match add_slot (mm M) col l with
                 | Throw e => RThrow s e
                 | UB => RUB
                 | Ok l' =>
                   match rj r with
                   | JArr off => match jarr h M with
                                 | Some J => ROk (set_jarr h M (splice off l' J), M) tt
                                 | None => RUB
                                 end
                   | _ => ROk s tt (* empty window: unchanged *)
                   end
                 end
               end
             end
      | _ => RThrow s EBCRS
      end
    | _ => RThrow s EBCRS
    end.

  (** number of leading indices that are < m (the loop of endindices, bcrsmatrix.hh:1281-1294) *)
  Fixpoint used_count (m : nat) (l : list nat) : nat :=
    match l with nil => 0 | c :: t => if m <=? c then 0 else S (used_count m t) end.

  Fixpoint shrink_rows (h : heap) (M : mat) (rs : list row) : option (list row * nat) :=
    match rs with
    | nil => Some (nil, 0)
    | r :: t =>
      match row_idx h M r, shrink_rows h M t with
      | Some l, Some (t', d) =>
        let u := used_count (mm M) l in
        Some (mkrow u (rj r) (ra r) :: t', (rsize r - u) + d)
      | _, _ => None
      end
    end.

  (** endindices (bcrsmatrix.hh:1269-1302) *)
  Definition endindices (s : st) : res st unit :=
    let (h, M) := s in
    match mmode M with
    | Random =>
      match mstage M with
      | RowSizesBuilt =>
        match shrink_rows h M (mrows M) with
        | None => RUB
        | Some (rs, d) =>
          let M1 := set_nnz (set_rows M rs) (mnnz M - d) in
          match allocateData M1 with
          | ROk M2 _ => ROk (h, set_stage (set_rows M2 (setDataPointers 0 (mrows M2))) Built) tt
          | RThrow M2 e => RThrow (h, M2) e
          | RUB => RUB
          end
        end
      | _ => RThrow s EBCRS
      end
    | _ => RThrow s EBCRS
    end.

  (** ** row-wise build mode *)

  (** CreateIterator: current row, running count, pattern (std::set), write position in [j_]
      (bcrsmatrix.hh:953-1088) *)
  Record citer := mkci { ci_row : nat; ci_nnz : nat; ci_pat : list nat; ci_pos : nat }.

  (** std::set<size_type>::insert *)
  Fixpoint set_insert (x : nat) (l : list nat) : list nat :=
    match l with
    | nil => [x]
    | y :: t => if x <? y then x :: l else if x =? y then l else y :: set_insert x t
    end.

  (** CreateIterator(Mat, i) (bcrsmatrix.hh:957-971) *)
  Definition ci_new (s : st) (i : nat) : res st citer :=
    let (h, M0) := s in
    let M := match mmode M0, mstage M0 with
             | Unknown, Building => set_mode M0 Row_wise
             | _, _ => M0 end in
    let building := match mstage M with Building => true | _ => false end in
    if (i =? 0) && negb building then RThrow (h, M) EBCRS
    else match mmode M with
         | Row_wise =>
           let M1 := if (i =? 0) && (mn M =? 0) then set_stage M Built else M in
           ROk (h, M1) (mkci i 0 nil 0)
         | _ => RThrow (h, M) EBCRS
         end.

  (** createbegin, createend, bcrsmatrix.hh:1094-1104 *)
  Definition createbegin (s : st) := ci_new s 0.
  Definition createend (s : st) := ci_new s (mn (snd s)).

  (** insert / contains / size (bcrsmatrix.hh:1063-1082) *)
  Definition ci_insert (c : citer) (j : nat) : citer :=
    mkci (ci_row c) (ci_nnz c) (set_insert j (ci_pat c)) (ci_pos c).
  Definition ci_contains (c : citer) (j : nat) : bool := existsb (Nat.eqb j) (ci_pat c).
  Definition ci_size (c : citer) : nat := length (ci_pat c).

  (** operator++ (bcrsmatrix.hh:974-1043) *)
  Definition ci_next (s : st) (c : citer) : res st citer :=
    let (h, M) := s in
    match mstage M with
    | Building =>
      let sz := length (ci_pat c) in
      let nnz := ci_nnz c + sz in
      match nth_error (mrows M) (ci_row c) with
      | None => RUB
      | Some _ =>
        let r1 : res st nat :=   (* new write position *)
          if 0 <? sz then
            if 0 <? mnnz M then
              if mnnz M <? nnz then RThrow s EBCRS
              else match jarr h M with
                   | Some J =>
                     if ci_pos c + sz <=? length J then
                       ROk (set_jarr h M (splice (ci_pos c) (ci_pat c) J),
                            set_rows M (upd (mrows M) (ci_row c) (mkrow sz (JArr (ci_pos c)) ANull)))
                           (ci_pos c + sz)
                     else RUB
                   | None => RUB
                   end
            else ROk (h, set_rows M (upd (mrows M) (ci_row c)
                                         (mkrow sz (JOwn (ci_pat c)) (AOwn (repeat dv sz)))))
                     (ci_pos c)
          else ROk (h, set_rows M (upd (mrows M) (ci_row c) (mkrow 0 JNull ANull))) (ci_pos c) in
        rbind r1 (fun s1 pos' =>
          let (h1, M1) := s1 in
          let c' := mkci (S (ci_row c)) nnz nil pos' in
          if S (ci_row c) =? mn M1 then
            let M2 := set_stage M1 Built in
            if 0 <? mnnz M2 then
              match allocateData (set_nnz M2 nnz) with
              | ROk M3 _ => ROk (h1, set_rows M3 (setDataPointers 0 (mrows M3))) c'
              | RThrow M3 e => RThrow (h1, M3) e
              | RUB => RUB
              end
            else ROk (h1, M2) c'
          else ROk (h1, M1) c')
      end
    | _ => RThrow s EBCRS
    end.

  (** The canonical building loop
      [for (auto row = A.createbegin(); row != A.createend(); ++row) for (j : ins[row.index()]) row.insert(j);]
      for a list [ins] of insertion sequences, one per row. *)
  Fixpoint ci_walk (s : st) (c : citer) (ins : list (list nat)) : res st citer :=
    match ins with
    | nil => match createend s with
             | ROk s1 e => if ci_row c =? ci_row e then ROk s1 c else RUB (* fewer rows given than N() *)
             | RThrow s1 e => RThrow s1 e
             | RUB => RUB
             end
    | js :: t =>
      match createend s with
      | ROk s1 e =>
        if ci_row c =? ci_row e then ROk s1 c
        else rbind (ci_next s1 (fold_left ci_insert js c)) (fun s2 c2 => ci_walk s2 c2 t)
      | RThrow s1 e => RThrow s1 e
      | RUB => RUB
      end
    end.

  (** the usual loop over the create iterator as in bcrsmatrix.hh:270-283 *)
  Definition rowwise_build (s : st) (ins : list (list nat)) : res st citer :=
    rbind (createbegin s) (fun s1 c => ci_walk s1 c ins).

  (** ** implicit build mode *)

  Fixpoint over_find (k : nat * nat) (o : list ((nat * nat) * V)) : option V :=
    match o with
    | nil => None
    | (k', v) :: t => if (fst k =? fst k') && (snd k =? snd k') then Some v else over_find k t
    end.
  Definition key_lt (k k' : nat * nat) : bool :=
    (fst k <? fst k') || ((fst k =? fst k') && (snd k <? snd k')).
  (** std::map operator[] followed by an assignment, keys kept in lexicographic order *)
  Fixpoint over_set (k : nat * nat) (v : V) (o : list ((nat * nat) * V)) : list ((nat * nat) * V) :=
    match o with
    | nil => [(k, v)]
    | (k', v') :: t =>
      if key_lt k k' then (k, v) :: o
      else if (fst k =? fst k') && (snd k =? snd k') then (k, v) :: t
      else (k', v') :: over_set k v t
    end.

  Fixpoint find_pos (x : nat) (l : list nat) : option nat :=
    match l with
    | nil => None
    | y :: t => if x =? y then Some 0 else option_map S (find_pos x t)
    end.

  (** the long arrays; a null array has no valid position *)
  Definition jarr_or_nil (h : heap) (M : mat) : list nat := match jarr h M with Some J => J | None => nil end.
  Definition data_or_nil (M : mat) : list V := match madata M with Some a => a | None => nil end.

  (** [entry(row,col) = f(entry(row,col))] (bcrsmatrix.hh:1317-1369).  A matrix made with the generic constructor
      and mode implicit has null windows; its entry()/compress() are not modelled further (reported as RUB).  [chk] = DUNE_ISTL_WITH_CHECKING. *)
  Definition entry (chk : bool) (s : st) (i col : nat) (f : V -> V) : res st unit :=
    let (h, M) := s in
    let ok_mode := match mmode M with Implicit => true | _ => false end in
    let ok_stage := match mstage M with Building => true | _ => false end in
    if chk && negb (ok_mode && (match mstage M with Built | NotAllocated => false | _ => true end)) then RThrow s EBCRS
    else if chk && negb ok_stage then RThrow s EInvalidState
    else if chk && ((mn M <=? i) || (mm M <=? col)) then RThrow s EBCRS
    else match nth_error (mrows M) i with
    | None => RUB
    | Some r =>
      match rj r, ra r with
      | JArr jo, AArr ao =>
        let J := jarr_or_nil h M in
        let a := data_or_nil M in
        match find_pos col (slice jo (rsize r) J) with
        | Some k =>
          match nth_error a (ao + k) with
          | Some v => ROk (h, set_adata M (Some (upd a (ao + k) (f v)))) tt
          | None => RUB
          end
        | None =>
          if rsize r =? mavg M then
            let v := match over_find (i, col) (mover M) with Some v => v | None => zv end in
            ROk (h, set_over M (over_set (i, col) (f v) (mover M))) tt
          else
            match nth_error J (jo + rsize r), nth_error a (ao + rsize r) with
            | Some _, Some v =>
              ROk (set_jarr h M (upd J (jo + rsize r) col),
                   set_rows (set_adata M (Some (upd a (ao + rsize r) (f v))))
                            (upd (mrows M) i (mkrow (S (rsize r)) (rj r) (ra r)))) tt
            | _, _ => RUB
            end
        end
      | _, _ => RUB
      end
    end.

  (** state of the compression loop: index array, value array, write position, rest of the overflow *)
  Record cst := mkcst { c_J : list nat; c_A : list V; c_pos : nat; c_over : list ((nat * nat) * V) }.

  (** one element copied from the overflow area / from the row (bcrsmatrix.hh:1436-1449 and 1453-1467) *)
  Definition put (c : cst) (col : nat) (v : V) (o : list ((nat * nat) * V)) : option cst :=
    if (c_pos c <? length (c_J c)) && (c_pos c <? length (c_A c)) then
      Some (mkcst (upd (c_J c) (c_pos c) col) (upd (c_A c) (c_pos c) v) (S (c_pos c)) o)
    else None.

  (** [while (oit != end && oit->first < key(i, **it))] (bcrsmatrix.hh:1434-1450): [lim] re-reads the
      memory cell of the pending row element; returns the number of inserted elements *)
  Fixpoint drain (begin : nat) (lim : list nat -> option (nat * nat)) (o : list ((nat * nat) * V)) (c : cst) (k : nat)
    : res cst nat :=
    match o with
    | nil => ROk c k
    | (key, v) :: t =>
      match lim (c_J c) with
      | None => RUB
      | Some b =>
        if key_lt key b then
          if begin <? c_pos c then RThrow c EExhausted
          else match put c (snd key) v t with
               | Some c' => drain begin lim t c' (S k)
               | None => RUB
               end
        else ROk c k
      end
    end.

  (** [while (oit != end && oit->first.first == i)] (bcrsmatrix.hh:1471-1487) *)
  Fixpoint drain_row (begin i : nat) (o : list ((nat * nat) * V)) (c : cst) (k : nat) : res cst nat :=
    match o with
    | nil => ROk c k
    | (key, v) :: t =>
      if fst key =? i then
        if begin <? c_pos c then RThrow c EExhausted
        else match put c (snd key) v t with
             | Some c' => drain_row begin i t c' (S k)
             | None => RUB
             end
      else ROk c k
    end.

  (** the loop over the sorted permutation [perm] of memory positions (bcrsmatrix.hh:1431-1468) *)
  Fixpoint copy_row (begin i : nat) (perm : list nat) (c : cst) (k : nat) : res cst nat :=
    match perm with
    | nil => ROk c k
    | p :: t =>
      rbind (drain begin (fun J => match nth_error J p with Some col => Some (i, col) | None => None end)
                   (c_over c) c k)
        (fun c1 k1 =>
           if begin <? c_pos c1 then RThrow c1 EExhausted
           else match nth_error (c_J c1) p, nth_error (c_A c1) p with
                | Some col, Some v =>
                  match put c1 col v (c_over c1) with
                  | Some c2 => copy_row begin i t c2 k1
                  | None => RUB
                  end
                | _, _ => RUB
                end)
    end.

  (** std::sort of the pointers by pointed-to value: stable insertion sort by key
      (columns within a row are distinct, so the result is unique) *)
  Fixpoint ins_by (key : nat -> nat) (p : nat) (l : list nat) : list nat :=
    match l with
    | nil => [p]
    | q :: t => if key p <=? key q then p :: l else q :: ins_by key p t
    end.
  Definition sort_by (key : nat -> nat) (l : list nat) : list nat := fold_right (ins_by key) nil l.

  (** one row of compress (bcrsmatrix.hh:1407-1492): returns the new window *)
  Definition compress_row (i : nat) (r : row) (c : cst) : res cst row :=
    match rj r with
    | JArr begin =>
      let perm := sort_by (fun p => nth p (c_J c) 0) (seq begin (rsize r)) in
      let start := c_pos c in
      rbind (copy_row begin i perm c 0) (fun c1 k1 =>
      rbind (drain_row begin i (c_over c1) c1 k1) (fun c2 k2 =>
        ROk c2 (mkrow (rsize r + k2) (JArr start) (AArr start))))
    | _ => RUB
    end.

  (** the loop over the rows in compress(), bcrsmatrix.hh:1424-1490 *)
  Fixpoint compress_rows (i : nat) (rs : list row) (c : cst) : res cst (list row) :=
    match rs with
    | nil => ROk c nil
    | r :: t =>
      rbind (compress_row i r c) (fun c1 r' =>
      rbind (compress_rows (S i) t c1) (fun c2 t' => ROk c2 (r' :: t')))
    end.

  (** write back the contents of the data array, if there is one *)
  Definition set_data (M : mat) (a : list V) : mat :=
    set_adata M (match madata M with Some _ => Some a | None => None end).

  (** compress (bcrsmatrix.hh:1381-1510); statistics are not modelled.  On
      ImplicitModeCompressionBufferExhausted the arrays are left partially overwritten; the model reports
      the arrays but not the partially moved windows. *)
  Definition compress (s : st) : res st unit :=
    let (h, M) := s in
    match mmode M with
    | Implicit =>
      match mstage M with
      | Built | NotAllocated => RThrow s EBCRS
      | RowSizesBuilt => RThrow s EInvalidState
      | Building =>
        let fin h M1 := match mrows M1 with
                        | nil => ROk (h, set_stage (set_over M1 nil) Built) tt
                        | _ => ROk (h, set_stage (set_over (set_nnz M1 (total_size (mrows M1))) nil) Built) tt
                        end in
        match mrows M with
        | nil => fin h M
        | _ =>
          match compress_rows 0 (mrows M) (mkcst (jarr_or_nil h M) (data_or_nil M) 0 (mover M)) with
          | ROk c rs => fin (set_jarr h M (c_J c)) (set_rows (set_data M (c_A c)) rs)
          | RThrow c e => RThrow (set_jarr h M (c_J c), set_data M (c_A c)) e
          | RUB => RUB
          end
        end
      end
    | _ => RThrow s EBCRS
    end.

  (** ** queries, element access, scaling *)

  (** nonzeroes() (bcrsmatrix.hh:2013-2019): caches the count in the mutable member nnz_ *)
  Definition nonzeroes (s : st) : st * nat :=
    let (h, M) := s in
    if mnnz M =? 0 then ((h, set_nnz M (total_size (mrows M))), total_size (mrows M))
    else (s, mnnz M).

  (** exists (bcrsmatrix.hh:2036-2043) with find (basearray.hh:478-484) *)
  Definition exists_ (s : st) (i j : nat) : outcome bool :=
    let (h, M) := s in
    match nth_error (mrows M) i with
    | None => UB
    | Some r =>
      if rsize r =? 0 then Ok false
      else match row_idx h M r with
           | None => UB
           | Some l => match lower_bound l j with
                       | None => UB
                       | Some p => Ok (match nth_error l p with Some c => c =? j | None => false end)
                       end
           end
    end.

  (** A[i][j] (bcrsmatrix.hh operator[], basearray.hh:331-346) *)
  Definition get (s : st) (i j : nat) : outcome V :=
    let (h, M) := s in
    match nth_error (mrows M) i with
    | None => UB
    | Some r =>
      match row_idx h M r with
      | None => UB
      | Some l =>
        match lower_bound l j with
        | None => UB
        | Some p =>
          match nth_error l p with
          | Some c => if c =? j then
                        match row_val M r with
                        | Some vs => match nth_error vs p with Some v => Ok v | None => UB end
                        | None => UB
                        end
                      else Throw EISTL
          | None => Throw EISTL
          end
        end
      end
    end.

  (** A[i][j] = f(A[i][j]) *)
  Definition modify (s : st) (i j : nat) (f : V -> V) : res st unit :=
    let (h, M) := s in
    match get s i j with
    | Throw e => RThrow s e
    | UB => RUB
    | Ok v =>
      match nth_error (mrows M) i with
      | None => RUB
      | Some r =>
        match row_idx h M r with
        | None => RUB
        | Some l =>
          match lower_bound l j with
          | None => RUB
          | Some p =>
            match ra r, madata M with
            | AArr off, Some a => ROk (h, set_adata M (Some (upd a (off + p) (f v)))) tt
            | AOwn vs, _ => ROk (h, set_rows M (upd (mrows M) i (mkrow (rsize r) (rj r) (AOwn (upd vs p (f v)))))) tt
            | _, _ => RUB
            end
          end
        end
      end
    end.

  (** operator*=, operator/= (bcrsmatrix.hh:1513-1566), [f] = multiply / divide by k *)
  Definition scale (s : st) (f : V -> V) : res st unit :=
    let (h, M) := s in
    if 0 <? mnnz M then
      match madata M with
      | Some a => if mnnz M <=? length a then
                    ROk (h, set_adata M (Some (map f (firstn (mnnz M) a) ++ skipn (mnnz M) a))) tt
                  else RUB
      | None => RUB
      end
    else
      (* row-wise traversal *)
      match map_opt (row_view h M) (mrows M) with
      | None => RUB
      | Some _ =>
        let step M r_i :=
          let '(r, i) := r_i in
          if rsize r =? 0 then M else
          match ra r with
          | AOwn vs => set_rows M (upd (mrows M) i (mkrow (rsize r) (rj r) (AOwn (map f (firstn (rsize r) vs) ++ skipn (rsize r) vs))))
          | AArr off => match madata M with
                        | Some a => set_adata M (Some (splice off (map f (slice off (rsize r) a)) a))
                        | None => M
                        end
          | ANull => M
          end in
        ROk (h, fold_left step (combine (mrows M) (seq 0 (length (mrows M)))) M) tt
      end.

  (** ** copying *)

  (** setWindowPointers (bcrsmatrix.hh:2081-2099) *)
  Fixpoint setWindowPointers (off : nat) (rs : list row) : list row :=
    match rs with
    | nil => nil
    | r :: t =>
      if 0 <? rsize r then mkrow (rsize r) (JArr off) (AArr off) :: setWindowPointers (off + rsize r) t
      else mkrow 0 JNull ANull :: setWindowPointers off t
    end.

  (** row assignment [r[i] = Mat.r[i]] (bvector.hh:1037-1051) for windows into long arrays *)
  Definition row_assign (h : heap) (M S : mat) (rd rs : row) : option (heap * mat) :=
    if rsize rd =? 0 then Some (h, M) else
    match row_val S rs, ra rd, madata M, rj rd with
    | Some vs, AArr ao, Some a, JArr jo =>
      if ao + length vs <=? length a then
        let M1 := set_adata M (Some (splice ao vs a)) in
        match row_idx h S rs, jarr h M1 with
        | Some js, Some J =>
          if jo + length js <=? length J then Some (set_jarr h M1 (splice jo js J), M1) else None
        | _, _ => None
        end
      else None
    | _, _, _, _ => None
    end.

  (** the loop over the rows in copyWindowStructure, bcrsmatrix.hh:2151-2165 *)
  Fixpoint rows_assign (h : heap) (M S : mat) (rds rss : list row) : option (heap * mat) :=
    match rds, rss with
    | rd :: td, rs :: ts =>
      match row_assign h M S rd rs with
      | Some (h1, M1) => rows_assign h1 M1 S td ts
      | None => None
      end
    | _, _ => Some (h, M)
    end.

  (** copyWindowStructure (bcrsmatrix.hh:2151-2161).  Both loops run over [n] rows of both matrices: a missing
      row array (null [r]) is an invalid access. *)
  Definition copyWindowStructure (h : heap) (M S : mat) : option (heap * mat) :=
    if negb (length (mrows M) =? mn M) || negb (length (mrows S) =? mn M) then None else
    let M1 := set_rows M (setWindowPointers 0 (mrows S)) in
    match rows_assign h M1 S (mrows M1) (mrows S) with
    | Some (h2, M2) => Some (h2, set_stage (set_mode M2 Row_wise) Built)
    | None => None
    end.

  (** copy constructor (bcrsmatrix.hh:802-818).  Result: heap, source (its cached count may change), copy. *)
  Definition copy_ctor (h : heap) (S : mat) : res (heap * mat) mat :=
    match mstage S with
    | NotAllocated | Built =>
      let '((h0, S1), k) := nonzeroes (h, S) in
      let M0 := mkmat (mmode S) NotAllocated 0 0 0 0 nil None (mjid S) (mavg S) (mcbs S) nil in
      match allocate (h0, M0) (mn S) (mm S) k true true with
      | ROk (h1, M1) _ =>
        match copyWindowStructure h1 M1 S1 with
        | Some (h2, M2) => ROk (h2, S1) M2
        | None => RUB
        end
      | RThrow (h1, _) e => RThrow (h1, S1) e
      | RUB => RUB
      end
    | _ => RThrow (h, S) EInvalidState
    end.

  (** copy assignment between different objects (bcrsmatrix.hh:908-937).  The second freeing of the rows
      works on a null pointer and has no effect. *)
  Definition copy_assign (h : heap) (D S : mat) : res (heap * mat) mat :=
    match mstage D, mstage S with
    | (NotAllocated | Built), (NotAllocated | Built) =>
      let '(h1, D1) := deallocate (h, D) (negb (mn D =? mn S)) in
      let '((h2, S1), k) := nonzeroes (h1, S) in
      let D2 := set_jid (set_nnz D1 k) (mjid S1) in
      match allocate (h2, D2) (mn S) (mm S) k (negb (mn D =? mn S)) true with
      | ROk (h3, D3) _ =>
        match copyWindowStructure h3 D3 S1 with
        | Some (h4, D4) => ROk (h4, S1) D4
        | None => RUB
        end
      | RThrow (h3, D3) e => RThrow (h3, S1) e
      | RUB => RUB
      end
    | _, _ => RThrow (h, S) EInvalidState
    end.
End Bcrs.
