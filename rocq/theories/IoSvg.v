(** * The SVG export of matrices (C84): dune/istl/io.hh, writeSVGMatrix

    The stream is the list of what is written to it; the text of a header, of an opening and a closing svg element and of the user's writeSVGBlock (with its arguments) are single items.  Entries are numbers
    or matrices down to any depth.  size_t arithmetic is modulo 2^64.  Not modelled: the scaling in the header (floating point), DefaultSVGMatrixOptions::writeSVGBlock (the text of a rectangle), and the calls
    of writeSVGBlock with the stream that discards everything while the sizes of the blocks are determined. *)
From Coq Require Import Arith List Lia Bool ZArith FinFun.
Import ListNotations.
Open Scope Z_scope.

(** a matrix of given numbers of rows and columns: for each row the stored entries with their columns *)
Record mat (B : Type) := Mat { nrows : nat; ncols : nat; ents : list (list (nat * B)) }.
Arguments Mat {B}. Arguments nrows {B}. Arguments ncols {B}. Arguments ents {B}.
(** what for_each_entry visits, io.hh:595-602: row, column, entry *)
Definition entries {B} (A : mat B) : list (nat * nat * B) := flat_map (fun p => map (fun e => (fst p, fst e, snd e)) (snd p)) (combine (seq 0 (length (ents A))) (ents A)).

(** size_t *)
Definition word : Z := 2 ^ 64.
Definition wr (x : Z) : Z := x mod word.
(** std::numeric_limits<std::size_t>::max() *)
Definition null_offset : Z := word - 1.
Arguments word : simpl never. Arguments null_offset : simpl never.
Fixpoint set_nth {X} (l : list X) (k : nat) (x : X) : list X := match l, k with nil, _ => nil | _ :: t, O => x :: t | a :: t, S k' => a :: set_nth t k' x end.

Section Svg.
  Variable K : Type.
  (** opts.interspace and opts.block_size *)
  Variables gap bsize : Z.

  (** matrices of numbers (depth 0), of matrices of numbers (depth 1), ... *)
  Fixpoint nmat (d : nat) : Type := match d with O => mat K | S d' => mat (nmat d') end.
  (** what is written *)
  Inductive item :=
  | Header (w h : Z)                                                    (* writeSVGMatrixHeader with the offsets *)
  | Footer
  | Open (x y w h : Z)                                                  (* <svg x y width height> *)
  | Close
  | Whole (rp cp : list nat) (x y w h : Z)                              (* writeSVGBlock for a matrix *)
  | Value (rp cp : list nat) (v : K) (x y w h : Z).                     (* writeSVGBlock for a number *)

  (** ** Model *)
  (** io.hh:625-643: the size of the first entry that is seen for each index, in a vector of n+1 sizes *)
  Definition first_sizes {E} (sz : E -> Z) (idx : E -> nat) (n : nat) (es : list E) : list Z :=
    fold_left (fun offs e => if nth (S (idx e)) offs 0 =? null_offset then set_nth offs (S (idx e)) (sz e) else offs) es (repeat null_offset (S n)).
  (** io.hh:645-649: indices without entry get the smallest size *)
  Definition guess (offs : list Z) : list Z :=
    let m := match offs with nil => null_offset | x :: t => fold_right Z.min x t end in map (fun o => if o =? null_offset then m else o) offs.
  (** io.hh:651-657: partial sums *)
  Fixpoint scan (acc : Z) (l : list Z) : list Z := match l with nil => nil | o :: t => let a := wr (o + (acc + gap)) in a :: scan a t end.
  Definition offsets {E} (sz : E -> Z) (idx : E -> nat) (n : nat) (es : list E) : list Z := match guess (first_sizes sz idx n es) with nil => nil | _ :: t => gap :: scan gap t end.
  Definition row_of {B} (e : nat * nat * B) := fst (fst e).
  Definition col_of {B} (e : nat * nat * B) := snd (fst e).
  (** io.hh:678-695, the end of writeSVGMatrix *)
  Definition finish (header : bool) (rp cp : list nat) (content : list item) (size : Z * Z) : list item * (Z * Z) :=
    ((if header then [Header (fst size) (snd size)] else nil) ++ [Whole rp cp 0 0 (fst size) (snd size)] ++ content ++ (if header then [Footer] else nil), size).
  (** Impl::writeSVGMatrix, io.hh:574-696; prefixes are extended at their end.  The result: what is written and the pair that is returned *)
  Fixpoint write (d : nat) : nmat d -> bool -> list nat -> list nat -> list item * (Z * Z) :=
    match d return nmat d -> bool -> list nat -> list nat -> list item * (Z * Z) with
    | O => fun A header rp cp =>
        finish header rp cp
          (map (fun e => Value (rp ++ [row_of e]) (cp ++ [col_of e]) (snd e) (wr (gap + Z.of_nat (col_of e) * (gap + bsize))) (wr (gap + Z.of_nat (row_of e) * (gap + bsize))) bsize bsize) (entries A))
          (wr (gap + Z.of_nat (ncols A) * (bsize + gap)), wr (gap + Z.of_nat (nrows A) * (bsize + gap)))
    | S d' => fun A header rp cp =>
        let size e := snd (write d' (snd e) false (rp ++ [O]) (cp ++ [O])) in
        let co := offsets (fun e => fst (size e)) col_of (ncols A) (entries A) in
        let ro := offsets (fun e => snd (size e)) row_of (nrows A) (entries A) in
        finish header rp cp
          (flat_map (fun e => [Open (nth (col_of e) co 0) (nth (row_of e) ro 0) (wr (nth (S (col_of e)) co 0 - nth (col_of e) co 0 - gap)) (wr (nth (S (row_of e)) ro 0 - nth (row_of e) ro 0 - gap))] ++
                              fst (write d' (snd e) false (rp ++ [row_of e]) (cp ++ [col_of e])) ++ [Close]) (entries A))
          (last co 0, last ro 0)
    end.

  (** ** Specification *)
  (** what a reader sees: windows (svg elements), matrices and numbers with absolute positions and sizes *)
  Inductive seen :=
  | Window (x y w h : Z)
  | Matrix (rp cp : list nat) (x y w h : Z)
  | Number (rp cp : list nat) (v : K) (x y w h : Z).
  (** (ox, oy): origin of the innermost open svg element; outer: the origins of the others.  Closing elements that are not open is an error *)
  Fixpoint view (l : list item) (ox oy : Z) (outer : list (Z * Z)) : option (list seen) :=
    match l with
    | nil => match outer with nil => Some nil | _ => None end
    | Open x y w h :: t => option_map (cons (Window (ox + x) (oy + y) w h)) (view t (ox + x) (oy + y) ((ox, oy) :: outer))
    | Close :: t => match outer with nil => None | (ox', oy') :: outer' => view t ox' oy' outer' end
    | Whole rp cp x y w h :: t => option_map (cons (Matrix rp cp (ox + x) (oy + y) w h)) (view t ox oy outer)
    | Value rp cp v x y w h :: t => option_map (cons (Number rp cp v (ox + x) (oy + y) w h)) (view t ox oy outer)
    | Header _ _ :: t | Footer :: t => view t ox oy outer
    end.
  (** the position of index j if the indices before it have the sizes given by s, with a gap before each *)
  Fixpoint place (s : nat -> Z) (j : nat) : Z := match j with O => gap | S j' => place s j' + s j' + gap end.
  (** the size of index j: that of the first entry with this index, or without one the least size of the other indices *)
  Definition first_with {E} (idx : E -> nat) (es : list E) (j : nat) : option E := find (fun e => (idx e =? j)%nat) es.
  Definition least (l : list Z) : Z := match l with nil => 0 | x :: t => fold_right Z.min x t end.
  Definition known {E} (sz : E -> Z) (idx : E -> nat) (n : nat) (es : list E) : list Z := flat_map (fun j => match first_with idx es j with Some e => [sz e] | None => nil end) (seq 0 n).
  Definition width {E} (sz : E -> Z) (idx : E -> nat) (n : nat) (es : list E) (j : nat) : Z := match first_with idx es j with Some e => sz e | None => least (known sz idx n es) end.
  (** the size of a matrix: width and height *)
  Fixpoint extent (d : nat) : nmat d -> Z * Z :=
    match d return nmat d -> Z * Z with
    | O => fun A => (place (fun _ => bsize) (ncols A), place (fun _ => bsize) (nrows A))
    | S d' => fun A => (place (width (fun e => fst (extent d' (snd e))) col_of (ncols A) (entries A)) (ncols A), place (width (fun e => snd (extent d' (snd e))) row_of (nrows A) (entries A)) (nrows A))
    end.
  (** everything that has to be seen of a matrix at (ox, oy) *)
  Fixpoint picture (d : nat) : nmat d -> Z -> Z -> list nat -> list nat -> list seen :=
    match d return nmat d -> Z -> Z -> list nat -> list nat -> list seen with
    | O => fun A ox oy rp cp => Matrix rp cp ox oy (fst (extent 0 A)) (snd (extent 0 A)) ::
        map (fun e => Number (rp ++ [row_of e]) (cp ++ [col_of e]) (snd e) (ox + place (fun _ => bsize) (col_of e)) (oy + place (fun _ => bsize) (row_of e)) bsize bsize) (entries A)
    | S d' => fun A ox oy rp cp =>
        let w := width (fun e => fst (extent d' (snd e))) col_of (ncols A) (entries A) in let h := width (fun e => snd (extent d' (snd e))) row_of (nrows A) (entries A) in
        Matrix rp cp ox oy (fst (extent (S d') A)) (snd (extent (S d') A)) ::
        flat_map (fun e => Window (ox + place w (col_of e)) (oy + place h (row_of e)) (w (col_of e)) (h (row_of e)) ::
                           picture d' (snd e) (ox + place w (col_of e)) (oy + place h (row_of e)) (rp ++ [row_of e]) (cp ++ [col_of e])) (entries A)
    end.
  (** indices in range, no entry stored twice *)
  Definition shape_ok {B} (A : mat B) : Prop := length (ents A) = nrows A /\ Forall (fun row => NoDup (map fst row) /\ Forall (fun c => (c < ncols A)%nat) (map fst row)) (ents A).
  Fixpoint wellformed (d : nat) : nmat d -> Prop :=
    match d return nmat d -> Prop with O => fun A => shape_ok A | S d' => fun A => shape_ok A /\ forall e, In e (entries A) -> wellformed d' (snd e) end.
  (** matrices of matrices have an entry *)
  Fixpoint populated (d : nat) : nmat d -> Prop :=
    match d return nmat d -> Prop with O => fun _ => True | S d' => fun A => entries A <> nil /\ forall e, In e (entries A) -> populated d' (snd e) end.
  (** all sizes can be represented *)
  Definition small (d : nat) (A : nmat d) : Prop := fst (extent d A) < null_offset /\ snd (extent d A) < null_offset.
  Fixpoint fits (d : nat) : nmat d -> Prop :=
    match d return nmat d -> Prop with O => fun A => small 0 A | S d' => fun A => small (S d') A /\ forall e, In e (entries A) -> fits d' (snd e) end.

  (** the numbers among what is seen, with their multi-indices, *)
  Definition numbers (l : list seen) : list (list nat * list nat * K) := flat_map (fun s => match s with Number rp cp v _ _ _ _ => [(rp, cp, v)] | _ => nil end) l.
  (** and those of a matrix, row by row *)
  Fixpoint contents (d : nat) : nmat d -> list (list nat * list nat * K) :=
    match d return nmat d -> list (list nat * list nat * K) with
    | O => fun A => map (fun e => ([row_of e], [col_of e], snd e)) (entries A)
    | S d' => fun A => flat_map (fun e => map (fun q => (row_of e :: fst (fst q), col_of e :: snd (fst q), snd q)) (contents d' (snd e))) (entries A)
    end.
  (** blocks of the same column have the same width, of the same row the same height *)
  Fixpoint consistent (d : nat) : nmat d -> Prop :=
    match d return nmat d -> Prop with
    | O => fun _ => True
    | S d' => fun A => (forall e e', In e (entries A) -> In e' (entries A) ->
          (col_of e = col_of e' -> fst (extent d' (snd e)) = fst (extent d' (snd e'))) /\ (row_of e = row_of e' -> snd (extent d' (snd e)) = snd (extent d' (snd e')))) /\
        forall e, In e (entries A) -> consistent d' (snd e)
    end.
  (** rectangles with a distance of at least the gap in one direction *)
  Definition apart (x y w h x' y' w' h' : Z) : Prop := x + w + gap <= x' \/ x' + w' + gap <= x \/ y + h + gap <= y' \/ y' + h' + gap <= y.

  (** ** Proofs *)
  Hypothesis gap_ok : 0 <= gap.
  Hypothesis bsize_ok : 0 <= bsize.

  Lemma place_le s j k : (forall i, (i < k)%nat -> 0 <= s i) -> (j <= k)%nat -> place s j <= place s k.
  Proof.
    intros H L. induction k as [|k IH]; [replace j with O by lia; lia|]. destruct (Nat.eq_dec j (S k)) as [->|N]; [lia|]. cbn [place]. specialize (H k ltac:(lia)) as HK.
    assert (place s j <= place s k) by (apply IH; [intros; apply H; lia|lia]). lia.
  Qed.
  Lemma place_ge s k : (forall i, (i < k)%nat -> 0 <= s i) -> gap <= place s k.
  Proof. intros H. apply (place_le s 0 k H). lia. Qed.
  Lemma place_ext s s' j : (forall i, (i < j)%nat -> s i = s' i) -> place s j = place s' j.
  Proof. intros H. induction j as [|j IH]; cbn [place]; auto. rewrite IH by (intros; apply H; lia). rewrite (H j) by lia. reflexivity. Qed.
  Lemma place_const j : place (fun _ => bsize) j = gap + Z.of_nat j * (gap + bsize).
  Proof. induction j as [|j IH]; cbn [place]; [lia|]. rewrite IH. lia. Qed.
  Lemma wr_small x : 0 <= x < word -> wr x = x.
  Proof. intros H. apply Z.mod_small. auto. Qed.
  Lemma set_nth_length {X} (x : X) : forall l k, length (set_nth l k x) = length l.
  Proof. induction l as [|a l IH]; intros [|k]; cbn; auto. Qed.
  Lemma nth_set_nth {X} (x d0 : X) : forall l k j, (k < length l)%nat -> nth j (set_nth l k x) d0 = if (j =? k)%nat then x else nth j l d0.
  Proof. induction l as [|a l IH]; intros [|k] [|j] H; cbn in *; try lia; auto. apply IH. lia. Qed.

  Lemma ex_in {X} (l : list X) : l <> nil -> exists e, In e l.
  Proof. destruct l as [|x l]; [congruence|]. intros _. exists x. left. auto. Qed.

  Section Axis.
    Context {E : Type} (sz : E -> Z) (idx : E -> nat) (n : nat) (es : list E).
    Hypothesis in_range : forall e, In e es -> (idx e < n)%nat.
    Hypothesis sizes : forall e, In e es -> 0 <= sz e < null_offset.
    Lemma first_sizes_gen l : (forall e, In e l -> (idx e < n)%nat /\ 0 <= sz e < null_offset) -> forall offs, length offs = S n ->
      let r := fold_left (fun offs e => if nth (S (idx e)) offs 0 =? null_offset then set_nth offs (S (idx e)) (sz e) else offs) l offs in
      length r = S n /\ nth 0 r 0 = nth 0 offs 0 /\ forall j, (j < n)%nat -> nth (S j) r 0 = if nth (S j) offs 0 =? null_offset then match first_with idx l j with Some e => sz e | None => null_offset end else nth (S j) offs 0.
    Proof.
      induction l as [|e l IH]; intros H offs HL; cbn [fold_left]; cbv zeta.
      - split; auto. split; auto. intros j Hj. cbn [first_with find]. destruct (Z.eqb_spec (nth (S j) offs 0) null_offset); auto.
      - destruct (H e (or_introl eq_refl)) as [He Hs]. set (offs1 := if nth (S (idx e)) offs 0 =? null_offset then set_nth offs (S (idx e)) (sz e) else offs).
        assert (L1 : length offs1 = S n) by (unfold offs1; destruct (_ =? _); rewrite ?set_nth_length; auto).
        destruct (IH (fun x Hx => H x (or_intror Hx)) offs1 L1) as (R1 & R2 & R3). split; auto. split.
        + rewrite R2. unfold offs1. destruct (_ =? _); auto. rewrite nth_set_nth by lia. reflexivity.
        + intros j Hj. rewrite R3 by auto. unfold first_with. cbn [find]. fold (first_with idx l j). unfold offs1. destruct (Nat.eqb_spec (idx e) j) as [->|NE].
          * destruct (Z.eqb_spec (nth (S j) offs 0) null_offset) as [EQ|NQ].
            -- rewrite nth_set_nth, Nat.eqb_refl by lia. destruct (Z.eqb_spec (sz e) null_offset); [lia|auto].
            -- destruct (Z.eqb_spec (nth (S j) offs 0) null_offset); [contradiction|auto].
          * destruct (nth (S (idx e)) offs 0 =? null_offset); auto. rewrite nth_set_nth by lia. destruct (Nat.eqb_spec (S j) (S (idx e))) as [EE|_]; [congruence|]. reflexivity.
    Qed.
    Definition got (j : nat) : Z := match first_with idx es j with Some e => sz e | None => null_offset end.
    Lemma first_sizes_eq : first_sizes sz idx n es = null_offset :: map got (seq 0 n).
    Proof.
      destruct (first_sizes_gen es (fun e He => conj (in_range e He) (sizes e He)) (repeat null_offset (S n)) (repeat_length _ _)) as (H1 & H2 & H3). fold (first_sizes sz idx n es) in *.
      apply nth_ext with (d := 0) (d' := 0); [cbn [length]; rewrite map_length, seq_length; lia|]. intros [|j] Hj; [rewrite H2; reflexivity|]. rewrite H1 in Hj. rewrite H3 by lia.
      assert (G : nth (S j) (repeat null_offset (S n)) 0 = null_offset) by (cbn [repeat nth]; rewrite (nth_indep _ 0 null_offset) by (rewrite repeat_length; lia); apply nth_repeat). rewrite G, Z.eqb_refl. cbn [nth].
      rewrite (nth_indep _ 0 (got O)) by (rewrite map_length, seq_length; lia). rewrite map_nth, seq_nth by lia. reflexivity.
    Qed.
    Lemma first_with_in j e : first_with idx es j = Some e -> In e es /\ idx e = j.
    Proof. intros H. apply find_some in H. destruct H as [H1 H2]. apply Nat.eqb_eq in H2. auto. Qed.
    Lemma first_with_ex e : In e es -> exists e', first_with idx es (idx e) = Some e'.
    Proof.
      intros H. destruct (first_with idx es (idx e)) as [e'|] eqn:F; eauto. exfalso. pose proof (find_none _ _ F e H) as G. cbn in G. rewrite Nat.eqb_refl in G. discriminate.
    Qed.
    Lemma min_swap x y l : Z.min y (fold_right Z.min x l) = Z.min x (fold_right Z.min y l).
    Proof. induction l as [|a l IH]; cbn [fold_right]; lia. Qed.
    Lemma min_known : forall s m, fold_right Z.min null_offset (map got (seq s m)) = fold_right Z.min null_offset (flat_map (fun j => match first_with idx es j with Some e => [sz e] | None => nil end) (seq s m)).
    Proof.
      intros s m. revert s. induction m as [|m IH]; intros s; cbn [seq map flat_map fold_right]; auto. rewrite IH. unfold got. destruct (first_with idx es s) as [e|]; cbn [app fold_right]; auto.
      match goal with |- Z.min _ ?x = _ => assert (x <= null_offset) by (generalize (flat_map (fun j => match first_with idx es j with Some e => [sz e] | None => nil end) (seq (S s) m)) as l; induction l; cbn [fold_right]; lia) end. lia.
    Qed.
    Hypothesis some : es <> nil.
    Lemma least_known : fold_right Z.min null_offset (map got (seq 0 n)) = least (known sz idx n es) /\ 0 <= least (known sz idx n es) < null_offset.
    Proof.
      rewrite min_known. unfold known. set (l := flat_map _ _). assert (HB : forall z, In z l -> 0 <= z < null_offset).
      { intros z Hz. apply in_flat_map in Hz. destruct Hz as (j & _ & Hz). destruct (first_with idx es j) as [e|] eqn:F; [|destruct Hz]. destruct Hz as [<-|[]]. apply first_with_in in F. apply sizes, F. }
      assert (NE : l <> nil). { destruct (ex_in es some) as (e & HI). destruct (first_with_ex e HI) as (e' & F). intros EL. assert (HZ : In (sz e') l) by (apply in_flat_map; exists (idx e); split; [apply in_seq; specialize (in_range e HI); lia|rewrite F; left; auto]). rewrite EL in HZ. destruct HZ. }
      clearbody l. destruct l as [|x l]; [congruence|]. cbn [least]. assert (G : forall l y, (forall z, In z (y :: l) -> 0 <= z < null_offset) -> 0 <= fold_right Z.min y l < null_offset).
      { clear. induction l as [|a l IH]; intros y H; cbn [fold_right]; [apply H; left; auto|]. assert (0 <= fold_right Z.min y l < null_offset) by (apply IH; intros z [Hz|Hz]; apply H; [left|right; right]; auto). pose proof (H a (or_intror (or_introl eq_refl))). lia. }
      split; [|apply G, HB]. cbn [fold_right]. rewrite min_swap. specialize (G l x HB). lia.
    Qed.
    Lemma guess_eq : exists z, guess (first_sizes sz idx n es) = z :: map (width sz idx n es) (seq 0 n).
    Proof.
      rewrite first_sizes_eq. unfold guess. cbv beta iota zeta. destruct least_known as [-> B]. cbn [map]. eexists. f_equal. rewrite map_map. apply map_ext_in. intros j _. unfold got, width. destruct (first_with idx es j) as [e|] eqn:F.
      - apply first_with_in in F. pose proof (sizes e (proj1 F)). destruct (Z.eqb_spec (sz e) null_offset); [lia|auto].
      - rewrite Z.eqb_refl. reflexivity.
    Qed.
    Lemma width_ge j : 0 <= width sz idx n es j.
    Proof. unfold width. destruct (first_with idx es j) as [e|] eqn:F; [apply first_with_in in F; apply sizes, F|apply least_known]. Qed.
    Lemma scan_eq s : (forall j, 0 <= s j) -> forall m k, place s (k + m) < word -> scan (place s k) (map s (seq k m)) = map (place s) (seq (S k) m).
    Proof.
      intros HS. induction m as [|m IH]; intros k H; cbn [seq map scan]; auto. cbv zeta. assert (place s (S k) <= place s (k + S m)) by (apply place_le; auto; lia). pose proof (place_ge s (S k) (fun i _ => HS i)).
      replace (wr (s k + (place s k + gap))) with (place s (S k)) by (rewrite wr_small; cbn [place] in *; lia). f_equal. apply IH. replace (S k + m)%nat with (k + S m)%nat by lia. auto.
    Qed.
    Lemma offsets_eq : place (width sz idx n es) n < null_offset -> offsets sz idx n es = map (place (width sz idx n es)) (seq 0 (S n)).
    Proof.
      intros H. unfold offsets. destruct guess_eq as (z & ->). change (seq 0 (S n)) with (0%nat :: seq 1 n). cbn [map place]. f_equal. apply (scan_eq (width sz idx n es) width_ge n 0). unfold null_offset in H. cbn [Nat.add]. lia.
    Qed.
  End Axis.
  Lemma offsets_ext {E} (sz sz' : E -> Z) idx n es : (forall e, In e es -> sz e = sz' e) -> offsets sz idx n es = offsets sz' idx n es.
  Proof.
    intros H. unfold offsets. replace (first_sizes sz idx n es) with (first_sizes sz' idx n es); auto. unfold first_sizes. generalize (repeat null_offset (S n)). induction es as [|e es IH]; intros offs; cbn [fold_left]; auto.
    rewrite (H e) by (left; auto). apply IH. intros x Hx. apply H. right. auto.
  Qed.
  Lemma entries_in {B} (A : mat B) e : shape_ok A -> In e (entries A) -> (row_of e < nrows A)%nat /\ (col_of e < ncols A)%nat.
  Proof.
    intros [HL HF] H. unfold entries in H. apply in_flat_map in H. destruct H as ((r & row) & H1 & H2). cbn [fst snd] in H2. apply in_map_iff in H2. destruct H2 as ((c & v) & <- & H2). cbn [fst snd row_of col_of].
    pose proof (in_combine_l _ _ _ _ H1) as G1. pose proof (in_combine_r _ _ _ _ H1) as G2. apply in_seq in G1. split; [unfold row_of; cbn; lia|]. rewrite Forall_forall in HF. destruct (HF row G2) as [_ HC]. rewrite Forall_forall in HC. apply HC. change c with (fst (c, v)). apply in_map, H2.
  Qed.
  Lemma nth_map_seq f m k : (k < m)%nat -> nth k (map f (seq 0 m)) 0 = f k.
  Proof. intros H. rewrite (nth_indep _ 0 (f O)) by (rewrite map_length, seq_length; lia). rewrite map_nth, seq_nth by lia. reflexivity. Qed.
  Lemma last_map_seq (f : nat -> Z) m : last (map f (seq 0 (S m))) 0 = f m.
  Proof. rewrite seq_S, map_app. cbn [map Nat.add]. apply last_last. Qed.
  Lemma extent_ge d : forall A, wellformed d A -> populated d A -> fits d A -> 0 <= fst (extent d A) < null_offset /\ 0 <= snd (extent d A) < null_offset.
  Proof.
    induction d as [|d IH]; intros A HW HP HF.
    - destruct HF as [F1 F2]. split; split; auto; cbn [extent fst snd]; (etransitivity; [|apply place_ge; intros; exact bsize_ok]); auto.
    - destruct HF as [[F1 F2] F3], HW as [W1 W2], HP as [P1 P2]. assert (HE : forall e, In e (entries A) -> 0 <= fst (extent d (snd e)) < null_offset /\ 0 <= snd (extent d (snd e)) < null_offset) by (intros e He; apply IH; auto).
      split; split; auto; cbn [extent fst snd]; (etransitivity; [|apply place_ge; intros; apply width_ge; auto; intros e He; solve [apply (entries_in A e W1 He)|apply HE, He]]); auto.
  Qed.
  Lemma view_header (b : bool) l ox oy outer : view ((if b then [Footer] else nil) ++ l) ox oy outer = view l ox oy outer.
  Proof. destruct b; reflexivity. Qed.
  Lemma view_map {X} (f : X -> item) (g : X -> seen) ox oy outer l : (forall x r, view (f x :: r) ox oy outer = option_map (cons (g x)) (view r ox oy outer)) -> forall r,
    view (map f l ++ r) ox oy outer = option_map (app (map g l)) (view r ox oy outer).
  Proof. intros H r. induction l as [|x l IH]; cbn [map app]; [destruct (view r ox oy outer); reflexivity|]. rewrite H, IH. destruct (view r ox oy outer); reflexivity. Qed.
  (** The export of a matrix (at any depth of nesting, all matrices of matrices with an entry, sizes representable) shows exactly the picture, all svg elements are closed, and the returned pair is the size *)
  Theorem C84_layout d (A : nmat d) header rp cp : wellformed d A -> populated d A -> fits d A ->
    snd (write d A header rp cp) = extent d A /\
    forall ox oy outer rest, view (fst (write d A header rp cp) ++ rest) ox oy outer = option_map (app (picture d A ox oy rp cp)) (view rest ox oy outer).
  Proof.
    revert header rp cp. induction d as [|d IH]; intros header rp cp HW HP HF.
    - destruct HF as [F1 F2]. cbn [extent fst snd] in F1, F2. assert (E : (wr (gap + Z.of_nat (ncols A) * (bsize + gap)), wr (gap + Z.of_nat (nrows A) * (bsize + gap))) = extent 0 A).
      { cbn [extent]. rewrite !place_const in *. unfold null_offset in *. rewrite !wr_small by nia. f_equal; lia. }
      cbn [write]. unfold finish. rewrite E. split; [reflexivity|]. intros ox oy outer rest. cbn [fst]. rewrite <- !app_assoc.
      replace (view ((if header then [Header (fst (extent 0 A)) (snd (extent 0 A))] else []) ++ _) ox oy outer) with (view ([Whole rp cp 0 0 (fst (extent 0 A)) (snd (extent 0 A))] ++ map (fun e => Value (rp ++ [row_of e]) (cp ++ [col_of e]) (snd e) (wr (gap + Z.of_nat (col_of e) * (gap + bsize))) (wr (gap + Z.of_nat (row_of e) * (gap + bsize))) bsize bsize) (entries A) ++ (if header then [Footer] else nil) ++ rest) ox oy outer) by (destruct header; reflexivity).
      cbn [app view picture]. rewrite !Z.add_0_r.
      assert (EM : map (fun e => Value (rp ++ [row_of e]) (cp ++ [col_of e]) (snd e) (wr (gap + Z.of_nat (col_of e) * (gap + bsize))) (wr (gap + Z.of_nat (row_of e) * (gap + bsize))) bsize bsize) (entries A) =
                   map (fun e => Value (rp ++ [row_of e]) (cp ++ [col_of e]) (snd e) (place (fun _ => bsize) (col_of e)) (place (fun _ => bsize) (row_of e)) bsize bsize) (entries A)).
      { apply map_ext_in. intros e He. destruct (entries_in A e HW He) as [H1 H2]. assert (place (fun _ => bsize) (col_of e) <= place (fun _ => bsize) (ncols A)) by (apply place_le; [auto|lia]). assert (place (fun _ => bsize) (row_of e) <= place (fun _ => bsize) (nrows A)) by (apply place_le; [auto|lia]).
        rewrite !place_const in *. unfold null_offset in *. rewrite !wr_small by nia. reflexivity. }
      rewrite EM. rewrite (view_map _ (fun e => Number (rp ++ [row_of e]) (cp ++ [col_of e]) (snd e) (ox + place (fun _ => bsize) (col_of e)) (oy + place (fun _ => bsize) (row_of e)) bsize bsize)) by reflexivity.
      rewrite view_header. destruct (view rest ox oy outer); reflexivity.
    - destruct HF as [[F1 F2] F3], HW as [W1 W2], HP as [P1 P2]. assert (HE : forall e, In e (entries A) -> 0 <= fst (extent d (snd e)) < null_offset /\ 0 <= snd (extent d (snd e)) < null_offset) by (intros e He; apply extent_ge; auto).
      assert (CO : offsets (fun e => fst (snd (write d (snd e) false (rp ++ [O]) (cp ++ [O])))) col_of (ncols A) (entries A) = map (place (width (fun e => fst (extent d (snd e))) col_of (ncols A) (entries A))) (seq 0 (S (ncols A)))).
      { rewrite (offsets_ext _ (fun e => fst (extent d (snd e)))) by (intros e He; rewrite (proj1 (IH (snd e) false _ _ (W2 e He) (P2 e He) (F3 e He))); reflexivity). apply offsets_eq; auto; [intros e He; apply (entries_in A e W1 He)|intros e He; apply HE, He]. }
      assert (RO : offsets (fun e => snd (snd (write d (snd e) false (rp ++ [O]) (cp ++ [O])))) row_of (nrows A) (entries A) = map (place (width (fun e => snd (extent d (snd e))) row_of (nrows A) (entries A))) (seq 0 (S (nrows A)))).
      { rewrite (offsets_ext _ (fun e => snd (extent d (snd e)))) by (intros e He; rewrite (proj1 (IH (snd e) false _ _ (W2 e He) (P2 e He) (F3 e He))); reflexivity). apply offsets_eq; auto; [intros e He; apply (entries_in A e W1 He)|intros e He; apply HE, He]. }
      assert (WG : forall j, 0 <= width (fun e => fst (extent d (snd e))) col_of (ncols A) (entries A) j) by (intros j; apply width_ge; auto; [intros e He; apply (entries_in A e W1 He)|intros e He; apply HE, He]).
      assert (HG : forall j, 0 <= width (fun e => snd (extent d (snd e))) row_of (nrows A) (entries A) j) by (intros j; apply width_ge; auto; [intros e He; apply (entries_in A e W1 He)|intros e He; apply HE, He]).
      cbn [write]. rewrite CO, RO. unfold finish. cbn [snd]. rewrite !last_map_seq. split; [reflexivity|].
      cbn [extent fst snd] in F1, F2.
      intros ox oy outer rest. cbn [fst snd picture extent]. remember (width (fun e => fst (extent d (snd e))) col_of (ncols A) (entries A)) as w. remember (width (fun e => snd (extent d (snd e))) row_of (nrows A) (entries A)) as h. clear Heqw Heqh CO RO.
      rewrite <- !app_assoc. match goal with |- view ((if header then ?H else nil) ++ ?t) _ _ _ = _ => replace (view ((if header then H else nil) ++ t) ox oy outer) with (view t ox oy outer) by (destruct header; reflexivity) end.
      cbn [app view]. rewrite !Z.add_0_r.
      match goal with |- option_map _ (view (flat_map ?f (entries A) ++ ?r) _ _ _) = _ => assert (G : forall es, incl es (entries A) -> view (flat_map f es ++ r) ox oy outer = option_map (app (flat_map (fun e => Window (ox + place w (col_of e)) (oy + place h (row_of e)) (w (col_of e)) (h (row_of e)) ::
                           picture d (snd e) (ox + place w (col_of e)) (oy + place h (row_of e)) (rp ++ [row_of e]) (cp ++ [col_of e])) es)) (view rest ox oy outer)) end.
      { induction es as [|e es IHe]; intros HI; cbn [flat_map].
        - cbn [app]. rewrite view_header. destruct (view rest ox oy outer); reflexivity.
        - assert (He : In e (entries A)) by (apply HI; left; auto). assert (R1 : (row_of e < nrows A)%nat) by apply (entries_in A e W1 He). assert (R2 : (col_of e < ncols A)%nat) by apply (entries_in A e W1 He). cbn [app]. rewrite <- !app_assoc. cbn [app view]. rewrite (proj2 (IH (snd e) false _ _ (W2 e He) (P2 e He) (F3 e He))). cbn [view].
          rewrite (nth_map_seq (place w) _ (col_of e)), (nth_map_seq (place w) _ (S (col_of e))), (nth_map_seq (place h) _ (row_of e)), (nth_map_seq (place h) _ (S (row_of e))) by lia. rewrite IHe by (intros x Hx; apply HI; right; auto).
          assert (place w (S (col_of e)) <= place w (ncols A)) by (apply place_le; [auto|lia]). assert (place h (S (row_of e)) <= place h (nrows A)) by (apply place_le; [auto|lia]).
          pose proof (place_ge w (col_of e) (fun i _ => WG i)). pose proof (place_ge h (row_of e) (fun i _ => HG i)). pose proof (WG (col_of e)). pose proof (HG (row_of e)). cbn [place] in *. unfold null_offset in *.
          replace (place w (col_of e) + w (col_of e) + gap - place w (col_of e) - gap) with (w (col_of e)) by lia. replace (place h (row_of e) + h (row_of e) + gap - place h (row_of e) - gap) with (h (row_of e)) by lia. rewrite !wr_small by lia.
          destruct (view rest ox oy outer); cbn [option_map]; auto. rewrite <- app_assoc. reflexivity. }
      rewrite G by apply incl_refl. destruct (view rest ox oy outer); reflexivity.
  Qed.
  (** so that a document shows the picture at the origin *)
  Theorem C84_document d (A : nmat d) header : wellformed d A -> populated d A -> fits d A -> view (fst (write d A header nil nil)) 0 0 nil = Some (picture d A 0 0 nil nil).
  Proof. intros HW HP HF. destruct (C84_layout d A header nil nil HW HP HF) as [_ H]. specialize (H 0 0 nil nil). rewrite app_nil_r in H. rewrite H. cbn [view option_map]. rewrite app_nil_r. reflexivity. Qed.

  Lemma numbers_picture d : forall A ox oy p q, numbers (picture d A ox oy p q) = map (fun t => (p ++ fst (fst t), q ++ snd (fst t), snd t)) (contents d A).
  Proof.
    induction d as [|d IH]; intros A ox oy p q.
    - cbn [picture contents]. unfold numbers. cbn [flat_map app]. rewrite map_map. cbn [fst snd]. induction (entries A) as [|e l IHl]; cbn [map flat_map app]; auto. f_equal. auto.
    - cbn [picture contents]. cbv zeta. unfold numbers. cbn [flat_map app]. fold numbers. generalize (width (fun e => fst (extent d (snd e))) col_of (ncols A) (entries A)) as w. generalize (width (fun e => snd (extent d (snd e))) row_of (nrows A) (entries A)) as h. intros h w.
      induction (entries A) as [|e l IHl]; cbn [flat_map map]; auto. rewrite flat_map_app, map_app, IHl. f_equal. cbn [flat_map app].
      match goal with |- flat_map _ (picture d ?B ?x ?y ?p' ?q') = _ => change (numbers (picture d B x y p' q') = map (fun t => (p ++ fst (fst t), q ++ snd (fst t), snd t)) (map (fun q0 => (row_of e :: fst (fst q0), col_of e :: snd (fst q0), snd q0)) (contents d (snd e)))) end.
      rewrite IH, map_map. apply map_ext. intros [[a b] v]. cbn [fst snd]. rewrite <- !app_assoc. reflexivity.
  Qed.
  Lemma combine_seq_rows {X} (l : list X) : forall s, map fst (combine (seq s (length l)) l) = seq s (length l).
  Proof. induction l as [|a l IH]; intros s; cbn; auto. f_equal. auto. Qed.
  Lemma entries_nodup {B} (A : mat B) : shape_ok A -> NoDup (map fst (entries A)).
  Proof.
    intros [_ HF]. unfold entries. generalize 0%nat as s. revert HF. generalize (ents A) as l. induction l as [|row l IH]; intros HF s; cbn [length seq combine flat_map map]; [constructor|]. cbn [fst snd].
    apply Forall_cons_iff in HF. destruct HF as [[HN _] HF]. rewrite map_app, map_map. cbn [fst]. assert (D : NoDup (map (fun x : nat * B => (s, fst x)) row)).
    { rewrite <- (map_map fst (fun c => (s, c))). apply Injective_map_NoDup; auto. intros a b E. congruence. }
    specialize (IH HF (S s)). induction row as [|e row IHr]; cbn [map app]; auto. inversion D as [|? ? D1 D2]; subst. inversion HN as [|? ? N1 N2]; subst. constructor; [|auto].
    intros HI. apply in_app_iff in HI. destruct HI as [HI|HI]; [contradiction|]. apply in_map_iff in HI. destruct HI as (x & E & HI). apply in_flat_map in HI. destruct HI as ((r & row') & H1 & H2). apply in_combine_l in H1. apply in_seq in H1. cbn [fst snd] in H2. apply in_map_iff in H2. destruct H2 as (y & <- & _). cbn [fst] in E. injection E as E1 _. lia.
  Qed.
  Lemma nodup_key {X Y} (f : X -> Y) : forall l, NoDup (map f l) -> forall a b, In a l -> In b l -> f a = f b -> a = b.
  Proof.
    induction l as [|x l IH]; intros H a b Ha Hb E; [destruct Ha|]. cbn in H. inversion H as [|? ? H1 H2]; subst. destruct Ha as [->|Ha], Hb as [->|Hb]; auto.
    - exfalso. apply H1. rewrite E. apply in_map, Hb.
    - exfalso. apply H1. rewrite <- E. apply in_map, Ha.
  Qed.
  Lemma entry_eq {B} (A : mat B) e e' : shape_ok A -> In e (entries A) -> In e' (entries A) -> row_of e = row_of e' -> col_of e = col_of e' -> e = e'.
  Proof. intros HS H H' E1 E2. apply (nodup_key fst (entries A)); auto; [apply entries_nodup; auto|]. destruct e as [[r c] v], e' as [[r' c'] v']. cbn in *. congruence. Qed.
  (** Every stored number is shown once, with its multi-index, and nothing else *)
  Theorem C84_once d (A : nmat d) : wellformed d A -> numbers (picture d A 0 0 nil nil) = contents d A /\ NoDup (map fst (contents d A)).
  Proof.
    intros HW. split.
    - rewrite numbers_picture. rewrite <- (map_id (contents d A)) at 2. apply map_ext. intros [[a b] v]. reflexivity.
    - revert A HW. induction d as [|d IH]; intros A HW.
      + cbn [contents]. rewrite map_map. unfold row_of, col_of. cbn [fst]. rewrite <- (map_map fst (fun k => ([fst k], [snd k]))). apply Injective_map_NoDup; [|apply entries_nodup, HW]. intros [a b] [a' b'] E. cbn in E. congruence.
      + destruct HW as [W1 W2]. cbn [contents]. pose proof (entries_nodup A W1) as ND. assert (G : forall l, incl l (entries A) -> NoDup (map fst l) -> NoDup (map fst (flat_map (fun e => map (fun q => (row_of e :: fst (fst q), col_of e :: snd (fst q), snd q)) (contents d (snd e))) l))); [|apply G; auto; apply incl_refl].
        clear ND. induction l as [|e l IHl]; intros HI HN; cbn [flat_map map]; [constructor|]. cbn [map] in HN. inversion HN as [|? ? N1 N2]; subst. rewrite map_app, map_map. cbn [fst].
        assert (D : NoDup (map (fun x => (row_of e :: fst (fst x), col_of e :: snd (fst x))) (contents d (snd e)))).
        { rewrite <- (map_map fst (fun k => (row_of e :: fst k, col_of e :: snd k))). apply Injective_map_NoDup; [|apply IH, W2, HI; left; auto]. intros [a b] [a' b'] E. cbn in E. congruence. }
        specialize (IHl (fun x Hx => HI x (or_intror Hx)) N2). clear - D IHl N1.
        match goal with |- NoDup (_ ++ ?r) => assert (GG : forall ts : list (list nat * list nat * K), NoDup (map (fun x => (row_of e :: fst (fst x), col_of e :: snd (fst x))) ts) -> NoDup (map (fun x => (row_of e :: fst (fst x), col_of e :: snd (fst x))) ts ++ r)); [|exact (GG _ D)] end.
        clear D. induction ts as [|t ts IHt]; intros D; cbn [map app]; [exact IHl|]. inversion D as [|? ? D1 D2]; subst. constructor; [|exact (IHt D2)]. intros HI. apply in_app_iff in HI. destruct HI as [HI|HI]; [exact (D1 HI)|].
        apply in_map_iff in HI. destruct HI as (z & E & HI). apply in_flat_map in HI. destruct HI as (e' & H1 & H2). apply in_map_iff in H2. destruct H2 as (u & <- & _). cbn [fst] in E. injection E as E1 _ E2 _. apply N1. replace (fst e) with (fst e') by (destruct e as [[r c] v], e' as [[r' c'] v']; cbn in *; congruence). apply in_map, H1.
  Qed.

  Lemma in_number d A ox oy p q rp cp v x y w h : In (Number rp cp v x y w h) (picture (S d) A ox oy p q) -> exists e, In e (entries A) /\
    In (Number rp cp v x y w h) (picture d (snd e) (ox + place (width (fun e => fst (extent d (snd e))) col_of (ncols A) (entries A)) (col_of e)) (oy + place (width (fun e => snd (extent d (snd e))) row_of (nrows A) (entries A)) (row_of e)) (p ++ [row_of e]) (q ++ [col_of e])).
  Proof. intros H. cbn [picture] in H. cbv zeta in H. destruct H as [H|H]; [discriminate|]. apply in_flat_map in H. destruct H as (e & H1 & [H2|H2]); [discriminate|]. eauto. Qed.
  Lemma width_first {E} (sz : E -> Z) idx n es j e : first_with idx es j = Some e -> width sz idx n es j = sz e.
  Proof. unfold width. intros ->. reflexivity. Qed.
  Lemma consistent_width d (A : nmat (S d)) e : consistent (S d) A -> In e (entries A) ->
    width (fun e => fst (extent d (snd e))) col_of (ncols A) (entries A) (col_of e) = fst (extent d (snd e)) /\ width (fun e => snd (extent d (snd e))) row_of (nrows A) (entries A) (row_of e) = snd (extent d (snd e)).
  Proof.
    intros [C1 _] He. split.
    - destruct (first_with_ex col_of (entries A) e He) as (e' & F). refine (eq_trans (width_first _ col_of (ncols A) (entries A) _ e' F) _). apply first_with_in in F. apply (C1 e' e); tauto.
    - destruct (first_with_ex row_of (entries A) e He) as (e' & F). refine (eq_trans (width_first _ row_of (nrows A) (entries A) _ e' F) _). apply first_with_in in F. apply (C1 e' e); tauto.
  Qed.
  Lemma inside d : forall A ox oy p q rp cp v x y w h, wellformed d A -> populated d A -> fits d A -> consistent d A -> In (Number rp cp v x y w h) (picture d A ox oy p q) ->
    w = bsize /\ h = bsize /\ ox + gap <= x /\ x + w + gap <= ox + fst (extent d A) /\ oy + gap <= y /\ y + h + gap <= oy + snd (extent d A).
  Proof.
    induction d as [|d IH]; intros A ox oy p q rp cp v x y w h HW HP HF HC HI.
    - cbn [picture] in HI. destruct HI as [HI|HI]; [discriminate|]. apply in_map_iff in HI. destruct HI as (e & E & HI). injection E as <- <- <- <- <- <- <-. destruct (entries_in A e HW HI) as [R1 R2]. cbn [extent fst snd].
      pose proof (place_ge (fun _ => bsize) (col_of e) (fun _ _ => bsize_ok)). pose proof (place_ge (fun _ => bsize) (row_of e) (fun _ _ => bsize_ok)).
      pose proof (place_le (fun _ => bsize) (S (col_of e)) (ncols A) (fun _ _ => bsize_ok) R2). pose proof (place_le (fun _ => bsize) (S (row_of e)) (nrows A) (fun _ _ => bsize_ok) R1). cbn [place] in *. lia.
    - apply in_number in HI. destruct HI as (e & He & HI). destruct (consistent_width d A e HC He) as [CW CH]. destruct HW as [W1 W2], HP as [P1 P2], HF as [F1 F2]. destruct HC as [C1 C2].
      assert (HE : forall e, In e (entries A) -> 0 <= fst (extent d (snd e)) < null_offset /\ 0 <= snd (extent d (snd e)) < null_offset) by (intros z Hz; apply extent_ge; auto).
      apply (IH _ _ _ _ _ _ _ _ _ _ _ _ (W2 e He) (P2 e He) (F2 e He) (C2 e He)) in HI. cbn [extent fst snd].
      assert (R1 : (row_of e < nrows A)%nat) by apply (entries_in A e W1 He). assert (R2 : (col_of e < ncols A)%nat) by apply (entries_in A e W1 He).
      assert (WG : forall j, 0 <= width (fun e => fst (extent d (snd e))) col_of (ncols A) (entries A) j) by (intros j; apply width_ge; auto; [intros z Hz; apply (entries_in A z W1 Hz)|intros z Hz; apply HE, Hz]).
      assert (HG : forall j, 0 <= width (fun e => snd (extent d (snd e))) row_of (nrows A) (entries A) j) by (intros j; apply width_ge; auto; [intros z Hz; apply (entries_in A z W1 Hz)|intros z Hz; apply HE, Hz]).
      remember (width (fun e => fst (extent d (snd e))) col_of (ncols A) (entries A)) as wd. remember (width (fun e => snd (extent d (snd e))) row_of (nrows A) (entries A)) as ht. clear Heqwd Heqht.
      pose proof (place_ge wd (col_of e) (fun i _ => WG i)). pose proof (place_ge ht (row_of e) (fun i _ => HG i)). pose proof (place_le wd (S (col_of e)) (ncols A) (fun i _ => WG i) R2). pose proof (place_le ht (S (row_of e)) (nrows A) (fun i _ => HG i) R1). cbn [place] in *. lia.
  Qed.
  (** If the blocks of a column have the same width and the blocks of a row the same height, all numbers are squares of the given size inside of the rectangle of the matrix, with the gap as distance from its border,
      and from each other *)
  Theorem C84_disjoint d (A : nmat d) ox oy p q : wellformed d A -> populated d A -> fits d A -> consistent d A ->
    (forall rp cp v x y w h, In (Number rp cp v x y w h) (picture d A ox oy p q) ->
      w = bsize /\ h = bsize /\ ox + gap <= x /\ x + w + gap <= ox + fst (extent d A) /\ oy + gap <= y /\ y + h + gap <= oy + snd (extent d A)) /\
    (forall rp cp v x y w h rp' cp' v' x' y' w' h', In (Number rp cp v x y w h) (picture d A ox oy p q) -> In (Number rp' cp' v' x' y' w' h') (picture d A ox oy p q) -> (rp, cp) <> (rp', cp') -> apart x y w h x' y' w' h').
  Proof.
    intros HW HP HF HC. split; [intros; eapply inside; eauto|]. intros rp cp v x y w h rp' cp' v' x' y' w' h'.
    assert (LT : forall s i j, (forall k, 0 <= s k) -> (i < j)%nat -> place s i + s i + gap <= place s j) by (intros s i j HS Hij; apply (place_le s (S i) j (fun k _ => HS k)); lia).
    revert A ox oy p q HW HP HF HC. induction d as [|d IH]; intros A ox oy p q HW HP HF HC H1 H2 NE.
    - cbn [picture] in H1, H2. destruct H1 as [H1|H1], H2 as [H2|H2]; try discriminate. apply in_map_iff in H1, H2. destruct H1 as (e & E & H1), H2 as (e' & E' & H2). injection E as <- <- <- <- <- <- <-. injection E' as <- <- <- <- <- <- <-. unfold apart.
      pose proof (LT (fun _ => bsize) (col_of e) (col_of e') (fun _ => bsize_ok)). pose proof (LT (fun _ => bsize) (col_of e') (col_of e) (fun _ => bsize_ok)). pose proof (LT (fun _ => bsize) (row_of e) (row_of e') (fun _ => bsize_ok)). pose proof (LT (fun _ => bsize) (row_of e') (row_of e) (fun _ => bsize_ok)).
      destruct (Nat.lt_trichotomy (col_of e) (col_of e')) as [L|[L|L]]; try lia. destruct (Nat.lt_trichotomy (row_of e) (row_of e')) as [M|[M|M]]; try lia. exfalso. apply NE. congruence.
    - apply in_number in H1, H2. destruct H1 as (e & He & H1), H2 as (e' & He' & H2). destruct (consistent_width d A e HC He) as [CW CH]. destruct (consistent_width d A e' HC He') as [CW' CH']. destruct HW as [W1 W2], HP as [P1 P2], HF as [F1 F2], HC as [C1 C2].
      assert (HE : forall e, In e (entries A) -> 0 <= fst (extent d (snd e)) < null_offset /\ 0 <= snd (extent d (snd e)) < null_offset) by (intros z Hz; apply extent_ge; auto).
      assert (WG : forall j, 0 <= width (fun e => fst (extent d (snd e))) col_of (ncols A) (entries A) j) by (intros j; apply width_ge; auto; [intros z Hz; apply (entries_in A z W1 Hz)|intros z Hz; apply HE, Hz]).
      assert (HG : forall j, 0 <= width (fun e => snd (extent d (snd e))) row_of (nrows A) (entries A) j) by (intros j; apply width_ge; auto; [intros z Hz; apply (entries_in A z W1 Hz)|intros z Hz; apply HE, Hz]).
      pose proof (inside _ _ _ _ _ _ _ _ _ _ _ _ _ (W2 e He) (P2 e He) (F2 e He) (C2 e He) H1) as I1. pose proof (inside _ _ _ _ _ _ _ _ _ _ _ _ _ (W2 e' He') (P2 e' He') (F2 e' He') (C2 e' He') H2) as I2.
      destruct (Nat.eq_dec (col_of e) (col_of e')) as [EC|NC]; [destruct (Nat.eq_dec (row_of e) (row_of e')) as [ER|NR]|].
      + assert (e = e') by (apply (entry_eq A); auto). subst e'. eapply (IH (snd e)); eauto.
      + remember (width (fun e => fst (extent d (snd e))) col_of (ncols A) (entries A)) as wd. remember (width (fun e => snd (extent d (snd e))) row_of (nrows A) (entries A)) as ht. clear Heqwd Heqht. pose proof (LT ht (row_of e) (row_of e') HG). pose proof (LT ht (row_of e') (row_of e) HG). unfold apart. lia.
      + remember (width (fun e => fst (extent d (snd e))) col_of (ncols A) (entries A)) as wd. remember (width (fun e => snd (extent d (snd e))) row_of (nrows A) (entries A)) as ht. clear Heqwd Heqht. pose proof (LT wd (col_of e) (col_of e') WG). pose proof (LT wd (col_of e') (col_of e) WG). unfold apart. lia.
  Qed.
  (** The header stands first with the returned size, the footer last, and only if the header is wanted; nested matrices have neither *)
  Theorem C84_header d (A : nmat d) rp cp : let s := snd (write d A false rp cp) in
    write d A true rp cp = (Header (fst s) (snd s) :: fst (write d A false rp cp) ++ [Footer], s) /\ Forall (fun i => match i with Header _ _ | Footer => False | _ => True end) (fst (write d A false rp cp)).
  Proof.
    split.
    - destruct d as [|d]; cbn [write]; unfold finish; cbn [fst snd app]; rewrite app_nil_r; reflexivity.
    - revert rp cp. induction d as [|d IH]; intros rp cp; cbn [write]; unfold finish; cbn [fst app]; rewrite app_nil_r; (constructor; [exact I|]).
      + apply Forall_forall. intros i Hi. apply in_map_iff in Hi. destruct Hi as (e & <- & _). exact I.
      + apply Forall_forall. intros i Hi. apply in_flat_map in Hi. destruct Hi as (e & _ & [<-|Hi]); [exact I|]. apply in_app_iff in Hi. destruct Hi as [Hi|[<-|[]]]; [|exact I]. specialize (IH (snd e) (rp ++ [row_of e]) (cp ++ [col_of e])). rewrite Forall_forall in IH. apply IH, Hi.
  Qed.
End Svg.
Arguments Number {K}. Arguments Matrix {K}. Arguments Window {K}.

(** ** Examples and deviations *)
Section SvgExamples.
  (** 2 x 2 blocks, gap 5 and size 10 (the defaults): a 1 x 2 block above a 2 x 2 block, next to a 1 x 1 block with one entry; one block is not stored, no block is full *)
  Definition a12 : nmat nat 0 := Mat 1 2 [[(1%nat, 7%nat)]].
  Definition a11 : nmat nat 0 := Mat 1 1 [[(0%nat, 8%nat)]].
  Definition a22 : nmat nat 0 := Mat 2 2 [[(0%nat, 1%nat); (1%nat, 2%nat)]; [(1%nat, 3%nat)]].
  Definition good2 : nmat nat 1 := Mat 2 3 [[(0%nat, a12); (2%nat, a11)]; [(0%nat, a22)]].
  Example C84_nonvacuous : wellformed nat 1 good2 /\ populated nat 1 good2 /\ fits nat 5 10 1 good2 /\ consistent nat 5 10 1 good2.
  Proof.
    assert (EN : entries good2 = [(0%nat, 0%nat, a12); (0%nat, 2%nat, a11); (1%nat, 0%nat, a22)]) by reflexivity.
    assert (SO : shape_ok good2 /\ shape_ok a12 /\ shape_ok a11 /\ shape_ok a22) by (repeat split; cbn; repeat constructor; cbn; intuition lia).
    split; [|split; [|split]].
    - split; [tauto|]. intros e He. rewrite EN in He. cbn in He. destruct He as [<-|[<-|[<-|[]]]]; cbn [snd]; tauto.
    - split; [rewrite EN; discriminate|]. intros; exact I.
    - split; [split; reflexivity|]. intros e He. rewrite EN in He. cbn in He. destruct He as [<-|[<-|[<-|[]]]]; split; reflexivity.
    - split; [|intros; exact I]. intros e e' He He'. rewrite EN in He, He'. cbn in He, He'. destruct He as [<-|[<-|[<-|[]]]], He' as [<-|[<-|[<-|[]]]]; split; intros H; try discriminate H; reflexivity.
  Qed.
  (** the column without blocks gets the smaller of the widths 35 and 20 *)
  Example C84_runs : write nat 5 10 1 good2 false [] [] =
    ([Whole nat [] [] 0 0 95 70;
      Open nat 5 5 35 20; Whole nat [0%nat] [0%nat] 0 0 35 20; Value nat [0%nat; 0%nat] [0%nat; 1%nat] 7%nat 20 5 10 10; Close nat;
      Open nat 70 5 20 20; Whole nat [0%nat] [2%nat] 0 0 20 20; Value nat [0%nat; 0%nat] [2%nat; 0%nat] 8%nat 5 5 10 10; Close nat;
      Open nat 5 30 35 35; Whole nat [1%nat] [0%nat] 0 0 35 35; Value nat [1%nat; 0%nat] [0%nat; 0%nat] 1%nat 5 5 10 10; Value nat [1%nat; 0%nat] [0%nat; 1%nat] 2%nat 20 5 10 10; Value nat [1%nat; 1%nat] [0%nat; 1%nat] 3%nat 20 20 10 10; Close nat], (95, 70)).
  Proof. vm_compute. reflexivity. Qed.
  (** Deviation: blocks of different sizes in a column.  Only the first one gets room, the numbers of others are drawn outside of their window and over their neighbours *)
  Definition a13 : nmat nat 0 := Mat 1 3 [[(2%nat, 9%nat)]].
  Definition bad2 : nmat nat 1 := Mat 2 2 [[(0%nat, a11); (1%nat, a11)]; [(0%nat, a13); (1%nat, a11)]].
  Theorem C84_sizes_refuted : wellformed nat 1 bad2 /\ exists l, view nat (fst (write nat 5 10 1 bad2 true [] [])) 0 0 [] = Some l /\
    In (Window 5 30 20 20) l /\ In (Number [1%nat; 0%nat] [0%nat; 2%nat] 9%nat 40 35 10 10) l /\ In (Number [1%nat; 0%nat] [1%nat; 0%nat] 8%nat 35 35 10 10) l /\ ~ apart 0 40 35 10 10 35 35 10 10.
  Proof.
    split; [|eexists; split; [vm_compute; reflexivity|split; [cbn; tauto|split; [cbn; tauto|split; [cbn; tauto|unfold apart; lia]]]]].
    assert (SO : shape_ok bad2 /\ shape_ok a13 /\ shape_ok a11) by (repeat split; cbn; repeat constructor; cbn; intuition lia).
    split; [tauto|]. intros e He. cbn in He. destruct He as [<-|[<-|[<-|[<-|[]]]]]; cbn [snd]; tauto.
  Qed.
  (** Deviation: a matrix of matrices without entries.  The sizes are 2^64 - 1, which is added to the offsets: each column has the width -1 *)
  Theorem C84_empty_refuted : snd (write nat 0 10 1 (Mat 1 1 [[]]) true [] []) = (word - 1, word - 1) /\ snd (write nat 5 10 1 (Mat 1 3 [[]]) true [] []) = (5 + 3 * (5 - 1), 5 + 1 * (5 - 1)).
  Proof. split; vm_compute; reflexivity. Qed.
End SvgExamples.
Print Assumptions C84_layout.
Print Assumptions C84_document.
Print Assumptions C84_once.
Print Assumptions C84_header.
Print Assumptions C84_disjoint.
Print Assumptions C84_sizes_refuted.
Print Assumptions C84_empty_refuted.
