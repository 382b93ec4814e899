(** * Distributed MatrixMarket files (dune/istl/matrixmarket.hh:315-335, 852-863, 1138-1393), C58 *)
From Coq Require Import String Ascii.
From Coq Require Import ZArith Arith List Lia Sorted Bool Permutation.
From Coq Require Decimal DecimalNat DecimalPos DecimalZ.
From Verif Require Import Outcome.
Import ListNotations.
Open Scope nat_scope.
Open Scope list_scope.

(** File contents and file names are lists of characters. *)
Notation text := (list ascii).
Definition txt (s : string) : text := list_ascii_of_string s.
Definition nl : ascii := "010"%char.

(** ** Formatted output of integers ([operator<<], [std::to_string]): decimal digits, a minus sign for negative numbers *)
Fixpoint show_uint (d : Decimal.uint) : text :=
  match d with
  | Decimal.Nil => []
  | Decimal.D0 d => "0"%char :: show_uint d | Decimal.D1 d => "1"%char :: show_uint d
  | Decimal.D2 d => "2"%char :: show_uint d | Decimal.D3 d => "3"%char :: show_uint d
  | Decimal.D4 d => "4"%char :: show_uint d | Decimal.D5 d => "5"%char :: show_uint d
  | Decimal.D6 d => "6"%char :: show_uint d | Decimal.D7 d => "7"%char :: show_uint d
  | Decimal.D8 d => "8"%char :: show_uint d | Decimal.D9 d => "9"%char :: show_uint d
  end.
Definition show_nat (n : nat) : text := show_uint (Nat.to_uint n).
Definition show_Z (z : Z) : text :=
  match Z.to_int z with Decimal.Pos d => show_uint d | Decimal.Neg d => "-"%char :: show_uint d end.

(** ** Formatted input: the part of std::istream that the loader uses (C locale, unbounded integers) *)
Record stream := mkS { rest : text; eofb : bool; failb : bool }.
Definition good (s : stream) : bool := negb (eofb s) && negb (failb s).
Definition set_fail (s : stream) := mkS (rest s) (eofb s) true.
Definition is_space (c : ascii) : bool :=
  Ascii.eqb c " "%char || Ascii.eqb c nl || Ascii.eqb c "009"%char || Ascii.eqb c "011"%char || Ascii.eqb c "012"%char || Ascii.eqb c "013"%char.
(** istream::peek: nothing unless good(); eofbit at the end of the file *)
Definition peek (s : stream) : option ascii * stream :=
  if good s then match rest s with [] => (None, mkS [] true false) | c :: _ => (Some c, s) end else (None, set_fail s).
(** istream::get *)
Definition get (s : stream) : stream :=
  if good s then match rest s with [] => mkS [] true true | _ :: t => mkS t false false end else set_fail s.
Fixpoint drop_space (t : text) : text :=
  match t with c :: t' => if is_space c then drop_space t' else t | [] => [] end.
(** istream::sentry of a formatted input function: skips white space; false (and failbit) unless good() afterwards *)
Definition sentry (s : stream) : bool * stream :=
  if good s then match drop_space (rest s) with [] => (false, mkS [] true true) | t => (true, mkS t false false) end
  else (false, set_fail s).
Fixpoint digits (t : text) : Decimal.uint * text :=
  match t with
  | [] => (Decimal.Nil, [])
  | c :: t' =>
    let k D := let r := digits t' in (D (fst r), snd r) in
    if Ascii.eqb c "0" then k Decimal.D0 else if Ascii.eqb c "1" then k Decimal.D1 else
    if Ascii.eqb c "2" then k Decimal.D2 else if Ascii.eqb c "3" then k Decimal.D3 else
    if Ascii.eqb c "4" then k Decimal.D4 else if Ascii.eqb c "5" then k Decimal.D5 else
    if Ascii.eqb c "6" then k Decimal.D6 else if Ascii.eqb c "7" then k Decimal.D7 else
    if Ascii.eqb c "8" then k Decimal.D8 else if Ascii.eqb c "9" then k Decimal.D9 else (Decimal.Nil, t)
  end.
Definition at_end (t : text) : bool := match t with [] => true | _ => false end.
(** [operator>>] into an integer.  None: the variable keeps its (here: indeterminate) value; a failed conversion stores 0. *)
Definition read_Z (s : stream) : option Z * stream :=
  let (ok, s1) := sentry s in
  if ok then
    let (neg, t) := match rest s1 with
                    | c :: t => if Ascii.eqb c "-" then (true, t) else if Ascii.eqb c "+" then (false, t) else (false, rest s1)
                    | [] => (false, []) end in
    let (d, t') := digits t in
    match d with
    | Decimal.Nil => (Some 0%Z, mkS t' (at_end t') true)
    | _ => (Some (Z.of_int (if neg then Decimal.Neg d else Decimal.Pos d)), mkS t' (at_end t') false)
    end
  else (None, s1).
(** size_t: a leading minus sign is not modelled (conversion fails) *)
Definition read_nat (s : stream) : option nat * stream :=
  let (ok, s1) := sentry s in
  if ok then
    let (d, t') := digits (rest s1) in
    match d with
    | Decimal.Nil => (Some 0, mkS t' (at_end t') true)
    | _ => (Some (Nat.of_uint d), mkS t' (at_end t') false)
    end
  else (None, s1).
(** bool without boolalpha: 0 and 1, everything else fails *)
Definition read_bool (s : stream) : option bool * stream :=
  let (z, s1) := read_Z s in
  match z with
  | None => (None, s1)
  | Some z => if (z =? 0)%Z then (Some false, s1) else if (z =? 1)%Z then (Some true, s1) else (Some true, set_fail s1)
  end.
Fixpoint word (t : text) : text * text :=
  match t with c :: t' => if is_space c then ([], t) else let r := word t' in (c :: fst r, snd r) | [] => ([], []) end.
(** [operator>>] into std::string *)
Definition read_word (s : stream) : text * stream :=
  let (ok, s1) := sentry s in
  if ok then let (w, t) := word (rest s1) in (w, mkS t (at_end t) false) else ([], s1).

(** lineFeed, matrixmarket.hh:315-335 (its result is not used by the loader).  The loop eats blanks. *)
Fixpoint lf_loop (t : text) : stream :=
  match t with
  | [] => mkS [] true false
  | c :: t' => if Ascii.eqb c " " then lf_loop t' else if Ascii.eqb c nl then mkS t' false false else mkS t false false
  end.
Definition lineFeed (s : stream) : stream :=
  if eofb s then s else if failb s then s else lf_loop (rest s).

(** ** File names *)
(** std::string::find_last_of("."): the part before the last dot and the part from it on *)
Fixpoint last_dot (t : text) : option (text * text) :=
  match t with
  | [] => None
  | c :: t' => match last_dot t' with
               | Some (a, b) => Some (c :: a, b)
               | None => if Ascii.eqb c "." then Some ([], t) else None
               end
  end.
Definition teqb (a b : text) : bool := if list_eq_dec ascii_dec a b then true else false.
(** splitFilename, matrixmarket.hh:852-863 *)
Definition splitFilename (f : text) : text * text :=
  match last_dot f with
  | None => (f, [])
  | Some (p, e) => if teqb e (txt ".mm") || teqb e (txt ".mtx") then (p, e) else (f, [])
  end.
(** rfilename, matrixmarket.hh:1196, 1204, 1219 and 1272, 1280, 1283, 1297 *)
Definition rank_file (pure : text) (rank : nat) (ext : text) : text := pure ++ txt "_" ++ show_nat rank ++ ext.

Section Files.
  (** the global index type with its printing, reading and order *)
  Context {G : Type}.
  Variable show_G : G -> text.
  Variable read_G : stream -> option G * stream.
  Variable ltG : G -> G -> bool.
  (** the matrix or vector type with writeMatrixMarket and readMatrixMarket (C24) *)
  Context {M : Type}.
  Variable writeM : M -> text.
  Variable readM : M -> text -> res M unit.

  (** An index pair: global index, local index, attribute, public flag *)
  Record ipair := mkI { gl : G; lo : nat; attr : Z; pub : bool }.

  (** ** Storing *)
  (** matrixmarket.hh:1226-1230 *)
  Definition show_pair (i : ipair) : text :=
    show_G (gl i) ++ txt " " ++ show_nat (lo i) ++ txt " " ++ show_Z (attr i) ++ txt " " ++ show_Z (if pub i then 1 else 0)%Z ++ [nl].
  (** matrixmarket.hh:1225-1237 *)
  Definition write_idx (ix : list ipair) (nb : list Z) : text :=
    flat_map show_pair ix ++ txt "neighbours:" ++ flat_map (fun n => txt " " ++ show_Z n) nb.

  (** The file system: contents by name; opening a file for writing may fail. *)
  Definition fs := text -> option text.
  Definition upd (F : fs) (n c : text) : fs := fun m => if teqb m n then Some c else F m.
  Definition no_files : fs := fun _ => None.

  (** What one process knows: rank, matrix, index set, neighbours *)
  Record proc := mkP { p_rank : nat; p_mat : M; p_ix : list ipair; p_nb : list Z }.

  (** storeMatrixMarket with communication, matrixmarket.hh:1182-1240, as the sequence of its writes *)
  Definition store_writes (f : text) (storeIndices : bool) (p : proc) : list (text * text) :=
    let (pure, ext) := splitFilename f in
    (rank_file pure (p_rank p) (if teqb ext [] then txt ".mm" else ext), writeM (p_mat p))
      :: (if storeIndices then [(rank_file pure (p_rank p) (txt ".idx"), write_idx (p_ix p) (p_nb p))] else []).
  (** open, write and close of one file; IOError if it cannot be opened (matrixmarket.hh:1197-1200, 1205-1208, 1220-1222) *)
  Definition do_write (writable : text -> bool) (F : fs) (w : text * text) : res fs unit :=
    if writable (fst w) then ROk (upd F (fst w) (snd w)) tt else RThrow F EIO.
  Definition store (writable : text -> bool) (F : fs) (f : text) (storeIndices : bool) (p : proc) : res fs unit :=
    rrun (do_write writable) F (store_writes f storeIndices p).
  (** storeMatrixMarket without communication, matrixmarket.hh:1138-1166 *)
  Definition store_seq (writable : text -> bool) (F : fs) (f : text) (m : M) : res fs unit :=
    let (pure, ext) := splitFilename f in
    do_write writable F (pure ++ (if teqb ext [] then txt ".mm" else ext), writeM m).

  (** ** Loading *)
  (** The first readable file of a list of names *)
  Fixpoint open_first (F : fs) (ns : list text) : option text :=
    match ns with [] => None | n :: ns => match F n with Some c => Some c | None => open_first F ns end end.
  (** ParallelIndexSet::add + endResize: the pairs in the order of their global indices (std::sort) *)
  Fixpoint ins_pair (i : ipair) (l : list ipair) : list ipair :=
    match l with [] => [i] | j :: t => if ltG (gl i) (gl j) then i :: l else j :: ins_pair i t end.
  Definition sort_pairs (l : list ipair) : list ipair := fold_left (fun acc i => ins_pair i acc) l [].
  (** std::set<int>::insert *)
  Fixpoint ins_Z (z : Z) (l : list Z) : list Z :=
    match l with [] => [z] | w :: t => if (z <? w)%Z then z :: l else if (w <? z)%Z then w :: ins_Z z t else l end.

  (** One iteration of the loop in matrixmarket.hh:1306-1317 after the loop condition *)
  Definition read_pair (s : stream) : outcome (ipair * stream) :=
    let (g, s1) := read_G s in let (l, s2) := read_nat s1 in let (c, s3) := read_Z s2 in let (b, s4) := read_bool s3 in
    match g, l, c, b with
    | Some g, Some l, Some c, Some b => Ok (mkI g l c b, lineFeed s4)
    | _, _, _, _ => UB     (* an indeterminate value enters the index set *)
    end.
  (** while(!file.eof() && file.peek()!='n'), matrixmarket.hh:1305.  None: the fuel did not suffice. *)
  Fixpoint read_pairs (fuel : nat) (s : stream) (acc : list ipair) : option (outcome (list ipair * stream)) :=
    match fuel with
    | 0 => None
    | S fuel =>
      if eofb s then Some (Ok (acc, s)) else
      let (c, s1) := peek s in
      match c with
      | Some "n"%char => Some (Ok (acc, s1))
      | _ => match read_pair s1 with
             | Ok (i, s2) => read_pairs fuel s2 (acc ++ [i])
             | Throw e => Some (Throw e)
             | UB => Some UB
             end
      end
    end.
  (** while(!file.eof()) { int i; file >> i; nb.insert(i); }, matrixmarket.hh:1325-1329 *)
  Fixpoint read_nbs (fuel : nat) (s : stream) (nb : list Z) : option (outcome (list Z)) :=
    match fuel with
    | 0 => None
    | S fuel =>
      if eofb s then Some (Ok nb) else
      let (i, s1) := read_Z s in
      match i with None => Some UB | Some i => read_nbs fuel s1 (ins_Z i nb) end
    end.
  (** State of the caller's objects: matrix, index set, neighbours of the remote indices (None: never set) *)
  Record objs := mkO { o_mat : M; o_ix : list ipair; o_nb : option (list Z) }.
  (** matrixmarket.hh:1301-1334; the final rebuild of the remote indices is not modelled *)
  Definition load_idx (fuel : nat) (o : objs) (t : text) : option (res objs unit) :=
    match o_ix o with
    | _ :: _ => Some (RThrow o EInvalidState)
    | [] =>
      match read_pairs fuel (mkS t false false) [] with
      | None => None
      | Some UB => Some RUB
      | Some (Throw e) => Some (RThrow o e)
      | Some (Ok (l, s)) =>
        let o1 := mkO (o_mat o) (sort_pairs l) (o_nb o) in
        if eofb s then Some (ROk o1 tt) else
        let (w, s1) := read_word s in
        if teqb w (txt "neighbours:") then
          match read_nbs fuel s1 [] with
          | None => None
          | Some (Ok nb) => Some (ROk (mkO (o_mat o) (o_ix o1) (Some nb)) tt)
          | Some (Throw e) => Some (RThrow o1 e)
          | Some UB => Some RUB
          end
        else Some (RThrow o1 EMarket)
      end
    end.
  (** the names that are tried, matrixmarket.hh:1270-1290 *)
  Definition load_names (pure ext : text) (rank : nat) : list text :=
    if teqb ext [] then [rank_file pure rank (txt ".mm"); rank_file pure rank (txt ".mtx")] else [rank_file pure rank ext].
  (** loadMatrixMarket with communication, matrixmarket.hh:1256-1335 *)
  Definition load (fuel : nat) (F : fs) (f : text) (rank : nat) (readIndices : bool) (o : objs) : option (res objs unit) :=
    let (pure, ext) := splitFilename f in
    match open_first F (load_names pure ext rank) with
    | None => Some (RThrow o EIO)
    | Some c =>
      match readM (o_mat o) c with
      | RUB => Some RUB
      | RThrow m e => Some (RThrow (mkO m (o_ix o) (o_nb o)) e)
      | ROk m _ =>
        let o1 := mkO m (o_ix o) (o_nb o) in
        if readIndices then
          match F (rank_file pure rank (txt ".idx")) with
          | None => Some (RThrow o1 EIO)
          | Some t => load_idx fuel o1 t
          end
        else Some (ROk o1 tt)
      end
    end.
  (** loadMatrixMarket without communication, matrixmarket.hh:1351-1379 *)
  Definition load_seq (F : fs) (f : text) (m : M) : res M unit :=
    let (pure, ext) := splitFilename f in
    match open_first F (if teqb ext [] then [pure ++ txt ".mm"; pure ++ txt ".mtx"] else [pure ++ ext]) with
    | None => RThrow m EIO
    | Some c => readM m c
    end.
End Files.
Arguments mkI {G}. Arguments gl {G}. Arguments lo {G}. Arguments attr {G}. Arguments pub {G}.
Arguments mkP {G M}. Arguments p_rank {G M}. Arguments p_mat {G M}. Arguments p_ix {G M}. Arguments p_nb {G M}.
Arguments mkO {G M}. Arguments o_mat {G M}. Arguments o_ix {G M}. Arguments o_nb {G M}.

(** ** Numbers *)
Definition sep (t : text) : Prop := match t with [] => True | c :: _ => is_space c = true end.
Definition digitc (c : ascii) : bool :=
  Ascii.eqb c "0" || Ascii.eqb c "1" || Ascii.eqb c "2" || Ascii.eqb c "3" || Ascii.eqb c "4" || Ascii.eqb c "5" || Ascii.eqb c "6"
  || Ascii.eqb c "7" || Ascii.eqb c "8" || Ascii.eqb c "9".

Lemma space_cases c : is_space c = true -> c = " "%char \/ c = nl \/ c = "009"%char \/ c = "011"%char \/ c = "012"%char \/ c = "013"%char.
Proof. unfold is_space. rewrite !orb_true_iff, !Ascii.eqb_eq. tauto. Qed.
Lemma digits_sep t : sep t -> digits t = (Decimal.Nil, t).
Proof.
  destruct t as [|c t]; [reflexivity|]. cbn [sep]. intros H.
  apply space_cases in H. decompose [or] H; subst c; reflexivity.
Qed.
Lemma digits_show d t : sep t -> digits (show_uint d ++ t) = (d, t).
Proof. intros H. induction d; cbn [show_uint app]; [apply digits_sep, H|..]; cbn; rewrite IHd; reflexivity. Qed.
Lemma show_uint_head d : d <> Decimal.Nil -> exists c t, show_uint d = c :: t /\ digitc c = true.
Proof. destruct d; intros H; [congruence|..]; cbn [show_uint]; eexists; eexists; split; reflexivity. Qed.
Lemma show_uint_digits d : Forall (fun c => digitc c = true) (show_uint d).
Proof. induction d; cbn [show_uint]; constructor; auto. Qed.
Lemma show_uint_inj d d' : show_uint d = show_uint d' -> d = d'.
Proof.
  intros H. assert (K := digits_show d [] I). rewrite H, (digits_show d' [] I) in K. congruence.
Qed.
Lemma digitc_nospace c : digitc c = true -> is_space c = false.
Proof.
  unfold digitc. rewrite !orb_true_iff, !Ascii.eqb_eq. intros H. decompose [or] H; subst c; reflexivity.
Qed.
Lemma digitc_sign c : digitc c = true -> Ascii.eqb c "-" = false /\ Ascii.eqb c "+" = false.
Proof.
  unfold digitc. rewrite !orb_true_iff, !Ascii.eqb_eq. intros H. decompose [or] H; subst c; split; reflexivity.
Qed.
Lemma to_uint_nonnil n : Nat.to_uint n <> Decimal.Nil.
Proof.
  intros E. pose proof (DecimalNat.Unsigned.of_to n) as K. rewrite E in K. cbn in K. subst n. discriminate E.
Qed.
Lemma show_nat_inj a b : show_nat a = show_nat b -> a = b.
Proof. intros H. apply show_uint_inj in H. rewrite <- (DecimalNat.Unsigned.of_to a), H. apply DecimalNat.Unsigned.of_to. Qed.
Lemma drop_space_app sp t : Forall (fun c => is_space c = true) sp -> drop_space (sp ++ t) = drop_space t.
Proof. induction 1 as [|c sp E Hs IH]; [reflexivity|]. cbn [app drop_space]. rewrite E. exact IH. Qed.
Lemma drop_space_head c t : is_space c = false -> drop_space (c :: t) = c :: t.
Proof. intros E. cbn. rewrite E. reflexivity. Qed.

Definition blanks (sp : text) := Forall (fun c => is_space c = true) sp.
Lemma sentry_head sp c t : blanks sp -> is_space c = false -> sentry (mkS (sp ++ c :: t) false false) = (true, mkS (c :: t) false false).
Proof.
  intros Hs E. unfold sentry, good. cbn [rest eofb failb negb andb]. rewrite (drop_space_app _ _ Hs), (drop_space_head _ _ E). reflexivity.
Qed.
Lemma sentry_eof sp : blanks sp -> sentry (mkS sp false false) = (false, mkS [] true true).
Proof.
  intros Hs. unfold sentry, good. cbn [rest eofb failb negb andb]. rewrite <- (app_nil_r sp), (drop_space_app _ _ Hs). reflexivity.
Qed.

Lemma read_nat_show sp n t : blanks sp -> sep t -> read_nat (mkS (sp ++ show_nat n ++ t) false false) = (Some n, mkS t (at_end t) false).
Proof.
  intros Hs Ht. unfold read_nat. destruct (show_uint_head _ (to_uint_nonnil n)) as (c & u & E & Hc).
  unfold show_nat. rewrite E. cbn [app].
  rewrite (sentry_head _ _ _ Hs (digitc_nospace _ Hc)). cbn [rest]. rewrite app_comm_cons, <- E, (digits_show _ _ Ht).
  pose proof (DecimalNat.Unsigned.of_to n) as K. destruct (Nat.to_uint n) eqn:D; [discriminate E|..]; rewrite K; reflexivity.
Qed.
Lemma Z_to_int_nonnil z : Z.to_int z <> Decimal.Pos Decimal.Nil /\ Z.to_int z <> Decimal.Neg Decimal.Nil.
Proof.
  destruct z as [|p|p]; cbn; split; try discriminate; intros E; injection E as E;
    apply (DecimalPos.Unsigned.to_uint_nonnil p E).
Qed.
Lemma read_Z_show sp z t : blanks sp -> sep t -> read_Z (mkS (sp ++ show_Z z ++ t) false false) = (Some z, mkS t (at_end t) false).
Proof.
  intros Hs Ht. unfold read_Z, show_Z. pose proof (Z_to_int_nonnil z) as [N1 N2]. pose proof (DecimalZ.of_to z) as K.
  destruct (Z.to_int z) as [d|d].
  - assert (Hd : d <> Decimal.Nil) by congruence.
    destruct (show_uint_head _ Hd) as (c & u & E & Hc). rewrite E. cbn [app].
    rewrite (sentry_head _ _ _ Hs (digitc_nospace _ Hc)). cbn [rest]. destruct (digitc_sign _ Hc) as [-> ->].
    rewrite app_comm_cons, <- E, (digits_show _ _ Ht). destruct d; [congruence|..]; rewrite K; reflexivity.
  - assert (Hd : d <> Decimal.Nil) by congruence. cbn [app].
    rewrite (sentry_head sp "-"%char (show_uint d ++ t) Hs eq_refl). cbn [rest Ascii.eqb].
    change (Ascii.eqb "-" "-") with true. cbn [Bool.eqb]. rewrite (digits_show _ _ Ht).
    destruct d; [congruence|..]; rewrite K; reflexivity.
Qed.
Lemma read_bool_show sp (b : bool) t : blanks sp -> sep t ->
  read_bool (mkS (sp ++ show_Z (if b then 1 else 0)%Z ++ t) false false) = (Some b, mkS t (at_end t) false).
Proof. intros Hs Ht. unfold read_bool. rewrite (read_Z_show _ _ _ Hs Ht). destruct b; reflexivity. Qed.
Lemma show_Z_head z : exists c t, show_Z z = c :: t /\ c <> "n"%char /\ is_space c = false.
Proof.
  unfold show_Z. destruct (Z_to_int_nonnil z) as [N1 N2]. destruct (Z.to_int z) as [d|d].
  - destruct (show_uint_head d) as (c & t & E & Hc); [congruence|]. exists c, t. split; [exact E|].
    split; [intros ->; discriminate Hc | apply digitc_nospace, Hc].
  - eexists; eexists; split; [reflexivity|]. split; [discriminate | reflexivity].
Qed.

(** ** File names *)
Lemma teqb_eq a b : teqb a b = true <-> a = b.
Proof. unfold teqb. destruct (list_eq_dec ascii_dec a b); split; congruence. Qed.
Lemma teqb_refl a : teqb a a = true.
Proof. apply teqb_eq. reflexivity. Qed.
Lemma teqb_neq a b : a <> b -> teqb a b = false.
Proof. intros H. destruct (teqb a b) eqn:E; [|reflexivity]. apply teqb_eq in E. congruence. Qed.

Lemma last_dot_spec t : match last_dot t with
  | Some (a, b) => t = a ++ b /\ exists u, b = "."%char :: u /\ ~ In "."%char u
  | None => ~ In "."%char t end.
Proof.
  induction t as [|c t IH]; [intros []|]. cbn [last_dot]. destruct (last_dot t) as [[a b]|].
  - destruct IH as [-> H]. split; [reflexivity | exact H].
  - destruct (Ascii.eqb c ".") eqn:E.
    + apply Ascii.eqb_eq in E. subst c. split; [reflexivity|]. exists t. auto.
    + intros [->|H]; [discriminate E | auto].
Qed.
Lemma last_dot_ext p u : ~ In "."%char u -> last_dot (p ++ "."%char :: u) = Some (p, "."%char :: u).
Proof.
  intros H. induction p as [|c p IH]; cbn [app last_dot].
  - pose proof (last_dot_spec u) as K. destruct (last_dot u) as [[a b]|]; [|reflexivity].
    destruct K as [-> (v & -> & _)]. exfalso. apply H. apply in_or_app. right. left. reflexivity.
  - rewrite IH. reflexivity.
Qed.

(** C58: the extension of a file name is exactly a trailing ".mm" or ".mtx"; anything else is part of the name. *)
Theorem C58_split_filename f :
  fst (splitFilename f) ++ snd (splitFilename f) = f /\
  (snd (splitFilename f) = [] \/ snd (splitFilename f) = txt ".mm" \/ snd (splitFilename f) = txt ".mtx") /\
  (forall p, f = p ++ txt ".mm" -> splitFilename f = (p, txt ".mm")) /\
  (forall p, f = p ++ txt ".mtx" -> splitFilename f = (p, txt ".mtx")) /\
  (snd (splitFilename f) = [] <-> ~ exists p, f = p ++ txt ".mm" \/ f = p ++ txt ".mtx").
Proof.
  assert (A1 : forall p, f = p ++ txt ".mm" -> splitFilename f = (p, txt ".mm")).
  { intros p ->. unfold splitFilename. change (txt ".mm") with ("."%char :: txt "mm").
    rewrite last_dot_ext; [reflexivity|]. cbn. intros [H|[H|[]]]; discriminate. }
  assert (A2 : forall p, f = p ++ txt ".mtx" -> splitFilename f = (p, txt ".mtx")).
  { intros p ->. unfold splitFilename. change (txt ".mtx") with ("."%char :: txt "mtx").
    rewrite last_dot_ext; [reflexivity|]. cbn. intros [H|[H|[H|[]]]]; discriminate. }
  assert (B : fst (splitFilename f) ++ snd (splitFilename f) = f /\
    (snd (splitFilename f) = [] \/ snd (splitFilename f) = txt ".mm" \/ snd (splitFilename f) = txt ".mtx")).
  { unfold splitFilename. pose proof (last_dot_spec f) as K. destruct (last_dot f) as [[a b]|].
    - destruct K as [Ef _]. destruct (teqb b (txt ".mm")) eqn:E1; [|destruct (teqb b (txt ".mtx")) eqn:E2]; cbn [orb fst snd].
      + apply teqb_eq in E1. auto.
      + apply teqb_eq in E2. auto.
      + rewrite app_nil_r. auto.
    - cbn [fst snd]. rewrite app_nil_r. auto. }
  destruct B as [B1 B2]. repeat (split; [assumption|]). split.
  - intros E (p & [H|H]); [rewrite (A1 p H) in E | rewrite (A2 p H) in E]; discriminate E.
  - intros H. destruct B2 as [B2|[B2|B2]]; [exact B2|exfalso..]; apply H; eexists; rewrite B2 in B1; [left|right]; symmetry; exact B1.
Qed.

Lemma digits_then_dot a b u v :
  Forall (fun c => digitc c = true) a -> Forall (fun c => digitc c = true) b -> a ++ "."%char :: u = b ++ "."%char :: v -> a = b /\ u = v.
Proof.
  intros Ha. revert b. induction Ha as [|c a Hc Ha IH]; intros b Hb H; destruct Hb as [|d b Hd Hb]; cbn [app] in H.
  - injection H as H. auto.
  - injection H as E H. subst d. discriminate Hd.
  - injection H as E H. subst c. discriminate Hc.
  - injection H as E H. subst d. destruct (IH b Hb H) as [-> ->]. auto.
Qed.
(** C58: the name of a file determines the rank and the extension. *)
Theorem C58_names_distinct pure r r' e e' :
  rank_file pure r ("."%char :: e) = rank_file pure r' ("."%char :: e') -> r = r' /\ e = e'.
Proof.
  unfold rank_file. intros H. apply app_inv_head in H. apply app_inv_head in H.
  apply digits_then_dot in H; try apply show_uint_digits. destruct H as [H ->]. split; [apply show_nat_inj, H | reflexivity].
Qed.

(** ** Specification of what is assumed of the global index type *)
(** Printing a global index and reading it back gives the same index and stops at the blank behind it; the text is not empty and does not
    begin with the letter 'n'. *)
Definition global_io {G} (show_G : G -> text) (read_G : stream -> option G * stream) : Prop :=
  (forall g t, read_G (mkS (show_G g ++ " "%char :: t) false false) = (Some g, mkS (" "%char :: t) false false)) /\
  (forall g, exists c t, show_G g = c :: t /\ c <> "n"%char).
(** A stream that is not good() is not read from. *)
Definition reads_when_good {G} (read_G : stream -> option G * stream) : Prop := forall s, good s = false -> fst (read_G s) = None.
Definition asymmetric {G} (ltG : G -> G -> bool) : Prop := forall a b, ltG a b = true -> ltG b a = false.
(** An index set is ordered by the global indices, without duplicates; a neighbour set by rank. *)
Definition index_set {G} (ltG : G -> G -> bool) (l : list (@ipair G)) : Prop := StronglySorted (fun a b => ltG (gl a) (gl b) = true) l.
Definition rank_set (l : list Z) : Prop := StronglySorted Z.lt l.

Section Proofs.
  Context {G : Type} (show_G : G -> text) (read_G : stream -> option G * stream) (ltG : G -> G -> bool).
  Context {M : Type} (writeM : M -> text) (readM : M -> text -> res M unit).
  Hypothesis IO : global_io show_G read_G.
  Hypothesis Asym : asymmetric ltG.

  Lemma blank1 : blanks [" "%char].
  Proof. repeat constructor. Qed.
  Lemma read_pair_show (i : @ipair G) t :
    read_pair read_G (mkS (show_pair show_G i ++ t) false false) = Ok (i, mkS t false false).
  Proof.
    destruct i as [g l c b]. unfold read_pair, show_pair. cbn [gl lo attr pub]. rewrite <- !app_assoc.
    change (txt " ") with [" "%char].
    assert (HG := proj1 IO g (show_nat l ++ [" "%char] ++ show_Z c ++ [" "%char] ++ show_Z (if b then 1%Z else 0%Z) ++ [nl] ++ t)).
    cbn [app] in HG |- *. rewrite HG.
    pose proof (read_nat_show [" "%char] l (" "%char :: show_Z c ++ " "%char :: show_Z (if b then 1%Z else 0%Z) ++ nl :: t) blank1 eq_refl) as E1.
    cbn [app] in E1. rewrite E1. cbn [at_end].
    pose proof (read_Z_show [" "%char] c (" "%char :: show_Z (if b then 1%Z else 0%Z) ++ nl :: t) blank1 eq_refl) as E2.
    cbn [app] in E2. rewrite E2. cbn [at_end].
    pose proof (read_bool_show [" "%char] b (nl :: t) blank1 eq_refl) as E3.
    cbn [app] in E3. rewrite E3. reflexivity.
  Qed.
  Lemma read_pairs_step fuel i t acc :
    read_pairs read_G (S fuel) (mkS (show_pair show_G i ++ t) false false) acc = read_pairs read_G fuel (mkS t false false) (acc ++ [i]).
  Proof.
    pose proof (read_pair_show i t) as K.
    assert (H : exists c u, show_pair show_G i ++ t = c :: u /\ c <> "n"%char).
    { destruct (proj2 IO (gl i)) as (c & u & E & Hc). unfold show_pair. rewrite E. cbn [app]. eauto. }
    destruct H as (c & u & E & Hc). rewrite E in *. cbn [read_pairs eofb]. unfold peek, good. cbn [eofb failb rest negb andb].
    rewrite K. destruct c as [[] [] [] [] [] [] [] []]; try reflexivity; exfalso; apply Hc; reflexivity.
  Qed.
  Lemma read_pairs_show ix fuel t acc :
    read_pairs read_G (length ix + fuel) (mkS (flat_map (show_pair show_G) ix ++ t) false false) acc
    = read_pairs read_G fuel (mkS t false false) (acc ++ ix).
  Proof.
    revert acc. induction ix as [|i ix IH]; intros acc; cbn [length flat_map app Nat.add].
    - rewrite app_nil_r. reflexivity.
    - rewrite <- app_assoc, read_pairs_step, IH, <- app_assoc. reflexivity.
  Qed.
  Lemma read_pairs_n fuel t acc : read_pairs read_G (S fuel) (mkS ("n"%char :: t) false false) acc = Some (Ok (acc, mkS ("n"%char :: t) false false)).
  Proof. reflexivity. Qed.

  Lemma ins_pair_last i l : Forall (fun j => ltG (gl j) (gl i) = true) l -> ins_pair ltG i l = l ++ [i].
  Proof. induction 1 as [|j l H Hl IH]; [reflexivity|]. cbn [ins_pair app]. rewrite (Asym _ _ H), IH. reflexivity. Qed.
  Lemma sort_pairs_sorted ix : index_set ltG ix -> sort_pairs ltG ix = ix.
  Proof.
    intros H. unfold sort_pairs. change ix with ([] ++ ix) at 2. revert H.
    assert (K : forall l acc, StronglySorted (fun a b => ltG (gl a) (gl b) = true) l ->
      Forall (fun a => Forall (fun b => ltG (gl a) (gl b) = true) l) acc -> fold_left (fun acc i => ins_pair ltG i acc) l acc = acc ++ l).
    { induction l as [|i l IH]; intros acc Hs Ha; cbn [fold_left]; [rewrite app_nil_r; reflexivity|].
      apply StronglySorted_inv in Hs. destruct Hs as [Hs Hi].
      rewrite ins_pair_last. 2:{ eapply Forall_impl; [|exact Ha]. cbn. intros a Hal. apply Forall_inv in Hal. exact Hal. }
      rewrite IH; [rewrite <- app_assoc; reflexivity | exact Hs|].
      apply Forall_app. split; [|repeat constructor; exact Hi].
      eapply Forall_impl; [|exact Ha]. cbn. intros a Hal. apply Forall_inv_tail in Hal. exact Hal. }
    intros H. apply K; [exact H | constructor].
  Qed.
  Lemma ins_Z_last z l : Forall (fun w => w < z)%Z l -> ins_Z z l = l ++ [z].
  Proof.
    induction 1 as [|w l H Hl IH]; [reflexivity|]. cbn [ins_Z app]. rewrite IH.
    destruct (Z.ltb_spec z w); [lia|]. destruct (Z.ltb_spec w z); [reflexivity | lia].
  Qed.

  Lemma read_nbs_step fuel n t acc : sep t ->
    read_nbs (S fuel) (mkS (" "%char :: show_Z n ++ t) false false) acc = read_nbs fuel (mkS t (at_end t) false) (ins_Z n acc).
  Proof.
    intros Ht. cbn [read_nbs eofb].
    pose proof (read_Z_show [" "%char] n t blank1 Ht) as E. cbn [app] in E. rewrite E. reflexivity.
  Qed.
  Lemma sep_nbs nb t : sep t -> sep (flat_map (fun n => txt " " ++ show_Z n) nb ++ t).
  Proof. destruct nb; [auto | reflexivity]. Qed.
  Lemma sorted_acc z nb (acc : list Z) : StronglySorted Z.lt (z :: nb) -> Forall (fun a => Forall (fun b => a < b)%Z (z :: nb)) acc ->
    ins_Z z acc = acc ++ [z] /\ StronglySorted Z.lt nb /\ Forall (fun a => Forall (fun b => a < b)%Z nb) (acc ++ [z]).
  Proof.
    intros Hs Ha. apply StronglySorted_inv in Hs. destruct Hs as [Hs Hz]. split; [|split; [exact Hs|]].
    - apply ins_Z_last. eapply Forall_impl; [|exact Ha]. cbn. intros a Hal. apply Forall_inv in Hal. exact Hal.
    - apply Forall_app. split; [|repeat constructor; exact Hz].
      eapply Forall_impl; [|exact Ha]. cbn. intros a Hal. apply Forall_inv_tail in Hal. exact Hal.
  Qed.
  (** the neighbours, followed by a text that does not continue the last number *)
  Lemma read_nbs_show nb fuel t acc : sep t -> StronglySorted Z.lt nb -> Forall (fun a => Forall (fun b => a < b)%Z nb) acc -> nb <> [] ->
    read_nbs (length nb + fuel) (mkS (flat_map (fun n => txt " " ++ show_Z n) nb ++ t) false false) acc
    = read_nbs fuel (mkS t (at_end t) false) (acc ++ nb).
  Proof.
    intros Ht. revert acc. induction nb as [|z nb IH]; intros acc Hs Ha Hn; [congruence|].
    destruct (sorted_acc _ _ _ Hs Ha) as (E & Hs' & Ha').
    cbn [length flat_map Nat.add]. rewrite <- !app_assoc. change (txt " ") with [" "%char] at 1. cbn [app].
    rewrite read_nbs_step by (apply sep_nbs, Ht). rewrite E.
    destruct nb as [|y nb].
    - cbn [flat_map app length Nat.add]. reflexivity.
    - specialize (IH _ Hs' Ha' ltac:(discriminate)). rewrite <- app_assoc in IH. cbn [app] in IH.
      replace (at_end (flat_map (fun n => txt " " ++ show_Z n) (y :: nb) ++ t)) with false by reflexivity. exact IH.
  Qed.

  Lemma word_neighbours t : sep t -> word (txt "neighbours:" ++ t) = (txt "neighbours:", t).
  Proof.
    intros Ht. change (txt "neighbours:") with (list_ascii_of_string "neighbours:"). cbn [list_ascii_of_string app].
    assert (word t = ([], t)) as E. { destruct t as [|c t]; [reflexivity|]. cbn in *. rewrite Ht. reflexivity. }
    cbn -[is_space]. rewrite E. reflexivity.
  Qed.
  Lemma read_word_neighbours t : sep t -> read_word (mkS (txt "neighbours:" ++ t) false false) = (txt "neighbours:", mkS t (at_end t) false).
  Proof.
    intros Ht. unfold read_word.
    pose proof (sentry_head [] "n"%char (txt "eighbours:" ++ t) ltac:(constructor) eq_refl) as E. cbn [app] in E.
    change (txt "neighbours:" ++ t) with ("n"%char :: txt "eighbours:" ++ t) at 1. rewrite E. cbn [rest].
    change ("n"%char :: txt "eighbours:" ++ t) with (txt "neighbours:" ++ t). rewrite (word_neighbours t Ht). reflexivity.
  Qed.

  Lemma load_idx_tail fuel (o : @objs G M) ix nb t : o_ix o = [] -> index_set ltG ix -> rank_set nb -> sep t -> length ix < fuel -> length nb < fuel ->
    load_idx read_G ltG fuel o (write_idx show_G ix nb ++ t) =
    match read_nbs (fuel - length nb) (mkS t (at_end t) false) nb with
    | None => None
    | Some (Ok nb') => Some (ROk (mkO (o_mat o) ix (Some nb')) tt)
    | Some (Throw e) => Some (RThrow (mkO (o_mat o) ix (o_nb o)) e)
    | Some UB => Some RUB
    end.
  Proof.
    intros Ho Hix Hnb Ht F1 F2. unfold load_idx. rewrite Ho. unfold write_idx. rewrite <- !app_assoc.
    replace fuel with (length ix + S (fuel - length ix - 1)) at 1 by lia.
    rewrite read_pairs_show. cbn [app]. change (txt "neighbours:") with ("n"%char :: txt "eighbours:") at 1. cbn [app].
    rewrite read_pairs_n. cbn [eofb]. rewrite (sort_pairs_sorted ix Hix).
    change ("n"%char :: txt "eighbours:" ++ flat_map (fun n => txt " " ++ show_Z n) nb ++ t)
      with (txt "neighbours:" ++ flat_map (fun n => txt " " ++ show_Z n) nb ++ t).
    rewrite read_word_neighbours by (apply sep_nbs, Ht).
    rewrite teqb_refl. cbn [o_ix o_mat o_nb].
    destruct nb as [|z nb].
    - cbn [flat_map app length]. rewrite Nat.sub_0_r. reflexivity.
    - replace (at_end (flat_map (fun n => txt " " ++ show_Z n) (z :: nb) ++ t)) with false by reflexivity.
      replace fuel with (length (z :: nb) + (fuel - length (z :: nb))) at 1 by lia.
      rewrite read_nbs_show; [reflexivity | exact Ht | exact Hnb | constructor | discriminate].
  Qed.
  (** C58: an index file gives back the index set and the neighbours it was written from. *)
  Theorem C58_index_roundtrip fuel (o : @objs G M) ix nb :
    o_ix o = [] -> index_set ltG ix -> rank_set nb -> length ix < fuel -> length nb < fuel ->
    load_idx read_G ltG fuel o (write_idx show_G ix nb) = Some (ROk (mkO (o_mat o) ix (Some nb)) tt).
  Proof.
    intros Ho Hix Hnb F1 F2. rewrite <- (app_nil_r (write_idx show_G ix nb)).
    rewrite load_idx_tail; auto; [|constructor].
    destruct (fuel - length nb) eqn:E; [lia|]. reflexivity.
  Qed.

  (** *** The file system *)
  Lemma run_writes writable (ws : list (text * text)) : forall F, (forall w, In w ws -> writable (fst w) = true) ->
    exists F', rrun (do_write writable) F ws = ROk F' tt /\
      (forall n, (forall c, ~ In (n, c) ws) -> F' n = F n) /\
      (forall n c, In (n, c) ws -> (forall c', In (n, c') ws -> c' = c) -> F' n = Some c).
  Proof.
    induction ws as [|[n c] ws IH]; intros F Hw.
    - exists F. split; [reflexivity|]. split; [auto | intros n c []].
    - cbn [rrun]. unfold do_write at 1. rewrite (Hw (n, c) (or_introl eq_refl)). cbn [fst snd].
      destruct (IH (upd F n c)) as (F' & E & Hf & Hl). { intros w H. apply Hw. right. exact H. }
      exists F'. split; [exact E|]. split.
      + intros m Hm. rewrite Hf. 2:{ intros d Hd. apply (Hm d). right. exact Hd. }
        unfold upd. rewrite teqb_neq; [reflexivity|]. intros ->. apply (Hm c). left. reflexivity.
      + intros m d Hd Hu.
        destruct (in_dec (list_eq_dec ascii_dec) m (map fst ws)) as [I|I].
        * apply in_map_iff in I. destruct I as ([m' d'] & Em & I). cbn [fst] in Em. subst m'.
          assert (d' = d) by (apply Hu; right; exact I). subst d'. apply Hl; [exact I|]. intros c' Hc'. apply Hu. right. exact Hc'.
        * assert (J : forall d', ~ In (m, d') ws). { intros d' K. apply I. apply in_map_iff. exists (m, d'). auto. }
          rewrite (Hf m J). destruct Hd as [Hd|Hd]; [|exfalso; eapply J; exact Hd].
          injection Hd as -> ->. unfold upd. rewrite teqb_refl. reflexivity.
  Qed.
  Definition mext (ext : text) : text := if teqb ext [] then txt ".mm" else ext.
  Lemma mext_dot f : exists e, mext (snd (splitFilename f)) = "."%char :: e /\ e <> txt "idx".
  Proof.
    destruct (C58_split_filename f) as (_ & [E|[E|E]] & _); rewrite E; unfold mext; cbn; eexists; (split; [reflexivity | discriminate]).
  Qed.
  Lemma store_writes_eq f b (p : @proc G M) : store_writes show_G writeM f b p =
    (rank_file (fst (splitFilename f)) (p_rank p) (mext (snd (splitFilename f))), writeM (p_mat p))
      :: (if b then [(rank_file (fst (splitFilename f)) (p_rank p) (txt ".idx"), write_idx show_G (p_ix p) (p_nb p))] else []).
  Proof. unfold store_writes. destruct (splitFilename f). reflexivity. Qed.
  Lemma same_rank (ps : list (@proc G M)) p q : NoDup (map p_rank ps) -> In p ps -> In q ps -> p_rank p = p_rank q -> p = q.
  Proof.
    induction ps as [|r ps IH]; intros Hn Hp Hq E; [destruct Hp|]. cbn [map] in Hn. apply NoDup_cons_iff in Hn. destruct Hn as [Hr Hn].
    destruct Hp as [Hp|Hp], Hq as [Hq|Hq].
    - congruence.
    - exfalso. apply Hr. rewrite Hp, E. apply in_map, Hq.
    - exfalso. apply Hr. rewrite Hq, <- E. apply in_map, Hp.
    - apply IH; assumption.
  Qed.
  Lemma unique_writes f b (ps : list (@proc G M)) p : NoDup (map p_rank ps) -> In p ps ->
    (forall c, In (rank_file (fst (splitFilename f)) (p_rank p) (mext (snd (splitFilename f))), c) (flat_map (store_writes show_G writeM f b) ps) -> c = writeM (p_mat p)) /\
    (forall c, In (rank_file (fst (splitFilename f)) (p_rank p) (txt ".idx"), c) (flat_map (store_writes show_G writeM f b) ps) -> b = true /\ c = write_idx show_G (p_ix p) (p_nb p)).
  Proof.
    intros Hn Hp. destruct (mext_dot f) as (e & Ee & He). change (txt ".idx") with ("."%char :: txt "idx").
    split; intros c Hc; apply in_flat_map in Hc; destruct Hc as (q & Hq & Hc); rewrite store_writes_eq, ?Ee in Hc; rewrite ?Ee in *;
      (destruct Hc as [Hc|Hc]; [|destruct b; [destruct Hc as [Hc|[]] | destruct Hc]]);
      injection Hc as E Ec; try (change (txt ".idx") with ("."%char :: txt "idx") in E); apply C58_names_distinct in E; destruct E as [E1 E2].
    - rewrite <- (same_rank ps q p Hn Hq Hp E1). auto.
    - exfalso. apply He. symmetry. exact E2.
    - exfalso. apply He. exact E2.
    - rewrite <- (same_rank ps q p Hn Hq Hp E1). auto.
  Qed.

  Lemma load_names_first (F : fs) f r c : F (rank_file (fst (splitFilename f)) r (mext (snd (splitFilename f)))) = Some c ->
    open_first F (load_names (fst (splitFilename f)) (snd (splitFilename f)) r) = Some c.
  Proof.
    intros H. unfold load_names, mext in *. destruct (teqb (snd (splitFilename f)) []); cbn [open_first]; rewrite H; reflexivity.
  Qed.
  Lemma load_eq fuel F f r b (o : @objs G M) : load read_G ltG readM fuel F f r b o =
    match open_first F (load_names (fst (splitFilename f)) (snd (splitFilename f)) r) with
    | None => Some (RThrow o EIO)
    | Some c =>
      match readM (o_mat o) c with
      | RUB => Some RUB
      | RThrow m e => Some (RThrow (mkO m (o_ix o) (o_nb o)) e)
      | ROk m _ =>
        if b then
          match F (rank_file (fst (splitFilename f)) r (txt ".idx")) with
          | None => Some (RThrow (mkO m (o_ix o) (o_nb o)) EIO)
          | Some t => load_idx read_G ltG fuel (mkO m (o_ix o) (o_nb o)) t
          end
        else Some (ROk (mkO m (o_ix o) (o_nb o)) tt)
      end
    end.
  Proof. unfold load. destruct (splitFilename f). reflexivity. Qed.

  (** C58: all processes store under one name, in any interleaving and over any old files; then every process that loads under the same
      name gets back its own matrix text, index set and neighbours. *)
  Theorem C58_store_load writable (F0 : fs) f (ps : list (@proc G M)) ws :
    NoDup (map p_rank ps) ->
    (forall p, In p ps -> index_set ltG (p_ix p) /\ rank_set (p_nb p)) ->
    Permutation ws (flat_map (store_writes show_G writeM f true) ps) ->
    (forall w, In w ws -> writable (fst w) = true) ->
    exists F, rrun (do_write writable) F0 ws = ROk F tt /\
      (forall n, ~ In n (map fst ws) -> F n = F0 n) /\
      forall p m0 nb0 m fuel, In p ps -> readM m0 (writeM (p_mat p)) = ROk m tt -> length (p_ix p) < fuel -> length (p_nb p) < fuel ->
        load read_G ltG readM fuel F f (p_rank p) true (mkO m0 [] nb0) = Some (ROk (mkO m (p_ix p) (Some (p_nb p))) tt) /\
        forall ix0, load read_G ltG readM fuel F f (p_rank p) false (mkO m0 ix0 nb0) = Some (ROk (mkO m ix0 nb0) tt).
  Proof.
    intros Hn Hv Hp Hw. destruct (run_writes writable ws F0 Hw) as (F & E & Hf & Hl).
    exists F. split; [exact E|]. split.
    { intros n H. apply Hf. intros c Hc. apply H. apply in_map_iff. exists (n, c). auto. }
    intros p m0 nb0 m fuel Ip Hm F1 F2.
    destruct (unique_writes f true ps p Hn Ip) as [U1 U2].
    assert (I : forall w, In w (store_writes show_G writeM f true p) -> In w ws).
    { intros w H. eapply Permutation_in; [apply Permutation_sym, Hp|]. apply in_flat_map. eauto. }
    rewrite store_writes_eq in I.
    assert (E1 : F (rank_file (fst (splitFilename f)) (p_rank p) (mext (snd (splitFilename f)))) = Some (writeM (p_mat p))).
    { apply Hl; [apply I; left; reflexivity|]. intros c Hc. apply U1. eapply Permutation_in; eassumption. }
    assert (E2 : F (rank_file (fst (splitFilename f)) (p_rank p) (txt ".idx")) = Some (write_idx show_G (p_ix p) (p_nb p))).
    { apply Hl; [apply I; right; left; reflexivity|]. intros c Hc. apply U2. eapply Permutation_in; eassumption. }
    apply load_names_first in E1. destruct (Hv p Ip) as [V1 V2].
    split; [|intros ix0]; rewrite load_eq, E1; cbn [o_mat o_ix o_nb]; rewrite Hm; [|reflexivity].
    rewrite E2. rewrite C58_index_roundtrip; auto.
  Qed.

  (** C58: without communication *)
  Theorem C58_store_load_seq writable (F0 : fs) f m m0 :
    (forall n, writable n = true) ->
    exists F, store_seq writeM writable F0 f m = ROk F tt /\ load_seq readM F f m0 = readM m0 (writeM m).
  Proof.
    intros Hw. unfold store_seq, load_seq, do_write. destruct (splitFilename f) as [p e]. rewrite Hw. eexists. split; [reflexivity|].
    cbn [fst snd]. unfold upd. destruct (teqb e []); cbn [open_first]; rewrite teqb_refl; reflexivity.
  Qed.

  (** C58: what is thrown, and what has happened to the arguments by then.  An open failure of the matrix file leaves all unchanged; a
      missing index file and a non-empty index set are only noticed after the matrix has been read. *)
  Theorem C58_errors fuel (F : fs) f r (o : @objs G M) :
    (open_first F (load_names (fst (splitFilename f)) (snd (splitFilename f)) r) = None ->
       forall b, load read_G ltG readM fuel F f r b o = Some (RThrow o EIO)) /\
    (forall c m, open_first F (load_names (fst (splitFilename f)) (snd (splitFilename f)) r) = Some c -> readM (o_mat o) c = ROk m tt ->
       (F (rank_file (fst (splitFilename f)) r (txt ".idx")) = None ->
          load read_G ltG readM fuel F f r true o = Some (RThrow (mkO m (o_ix o) (o_nb o)) EIO)) /\
       (F (rank_file (fst (splitFilename f)) r (txt ".idx")) <> None -> o_ix o <> [] ->
          load read_G ltG readM fuel F f r true o = Some (RThrow (mkO m (o_ix o) (o_nb o)) EInvalidState))).
  Proof.
    split.
    - intros H b. rewrite load_eq, H. reflexivity.
    - intros c m H Hm. split.
      + intros Hi. rewrite load_eq, H, Hm, Hi. reflexivity.
      + intros Hi Hx. rewrite load_eq, H, Hm. destruct (F (rank_file (fst (splitFilename f)) r (txt ".idx"))) as [t|]; [|congruence].
        unfold load_idx. cbn [o_ix]. destruct (o_ix o); [congruence | reflexivity].
  Qed.
  (** C58: a file of index lines followed by another word than "neighbours:" is rejected; the indices have been loaded by then. *)
  Theorem C58_wrong_word fuel (o : @objs G M) ix w t :
    o_ix o = [] -> index_set ltG ix -> length ix < fuel -> sep t ->
    Forall (fun c => is_space c = false) w -> "n"%char :: w <> txt "neighbours:" ->
    load_idx read_G ltG fuel o (flat_map (show_pair show_G) ix ++ ("n"%char :: w) ++ t) = Some (RThrow (mkO (o_mat o) ix (o_nb o)) EMarket).
  Proof.
    intros Ho Hix F1 Ht Hw Hn. unfold load_idx. rewrite Ho.
    replace fuel with (length ix + S (fuel - length ix - 1)) by lia. rewrite read_pairs_show. cbn [app]. rewrite read_pairs_n. cbn [eofb].
    rewrite (sort_pairs_sorted ix Hix). unfold read_word.
    pose proof (sentry_head [] "n"%char (w ++ t) ltac:(constructor) eq_refl) as E. cbn [app] in E. rewrite E. cbn [rest].
    assert (Ew : word ("n"%char :: w ++ t) = ("n"%char :: w, t)).
    { assert (K : word (w ++ t) = (w, t)).
      { clear -Ht Hw. induction Hw as [|c w Hc Hw IH]; cbn [app].
        - destruct t as [|c t]; [reflexivity|]. cbn in *. rewrite Ht. reflexivity.
        - cbn [word]. rewrite Hc, IH. reflexivity. }
      cbn [word]. rewrite K. reflexivity. }
    rewrite Ew, (teqb_neq _ _ Hn). reflexivity.
  Qed.

  (** ** Deviations *)
  (** An index file that breaks off behind a complete line (an interrupted store) is not rejected: an indeterminate index is added. *)
  Theorem C58_truncated_refuted (RG : reads_when_good read_G) fuel (o : @objs G M) ix :
    o_ix o = [] -> length ix < fuel -> load_idx read_G ltG fuel o (flat_map (show_pair show_G) ix) = Some RUB.
  Proof.
    intros Ho F1. unfold load_idx. rewrite Ho. rewrite <- (app_nil_r (flat_map (show_pair show_G) ix)).
    replace fuel with (length ix + S (fuel - length ix - 1)) by lia. rewrite read_pairs_show.
    cbn [read_pairs eofb]. unfold peek, good. cbn [eofb failb rest negb andb]. unfold read_pair.
    pose proof (RG (mkS [] true false) eq_refl) as K. destruct (read_G (mkS [] true false)) as [g s1]. cbn [fst] in K. subst g.
    destruct (read_nat s1) as [l s2]. destruct (read_Z s2) as [c s3]. destruct (read_bool s3) as [b s4]. reflexivity.
  Qed.
  (** An index file that breaks off between two neighbours loads without an error, with fewer neighbours. *)
  Theorem C58_truncated_neighbours_refuted fuel (o : @objs G M) ix nb1 nb2 :
    o_ix o = [] -> index_set ltG ix -> rank_set (nb1 ++ nb2) -> length ix < fuel -> length nb1 < fuel ->
    exists t, write_idx show_G ix (nb1 ++ nb2) = write_idx show_G ix nb1 ++ t /\
      load_idx read_G ltG fuel o (write_idx show_G ix nb1) = Some (ROk (mkO (o_mat o) ix (Some nb1)) tt).
  Proof.
    intros Ho Hix Hnb F1 F2. exists (flat_map (fun n => txt " " ++ show_Z n) nb2). split.
    - unfold write_idx. rewrite flat_map_app, !app_assoc. reflexivity.
    - apply C58_index_roundtrip; auto. clear -Hnb. unfold rank_set in *. induction nb1 as [|z nb1 IH]; [constructor|].
      apply StronglySorted_inv in Hnb. destruct Hnb as [Hs Hz]. constructor; [apply IH, Hs|]. apply Forall_app in Hz. apply Hz.
  Qed.
  (** An index file whose last line is terminated adds an indeterminate neighbour. *)
  Theorem C58_final_newline_refuted fuel (o : @objs G M) ix nb sp :
    o_ix o = [] -> index_set ltG ix -> rank_set nb -> length ix < fuel -> length nb < fuel -> blanks sp -> sp <> [] ->
    load_idx read_G ltG fuel o (write_idx show_G ix nb ++ sp) = Some RUB.
  Proof.
    intros Ho Hix Hnb F1 F2 Hs Hn.
    assert (Hsep : sep sp). { destruct sp as [|c sp]; [constructor|]. apply Forall_inv in Hs. exact Hs. }
    rewrite load_idx_tail; auto. destruct (fuel - length nb) eqn:E; [lia|].
    replace (at_end sp) with false by (destruct sp; [congruence | reflexivity]).
    cbn [read_nbs eofb]. unfold read_Z. rewrite (sentry_eof _ Hs). reflexivity.
  Qed.
  (** Two objects stored under one name: the second replaces the first, also if one is a matrix and the other a vector. *)
  Theorem C58_same_name_refuted (F0 : fs) f (p q : @proc G M) : p_rank p = p_rank q ->
    exists F1 F2, store show_G writeM (fun _ => true) F0 f true p = ROk F1 tt /\ store show_G writeM (fun _ => true) F1 f true q = ROk F2 tt /\
      F2 (rank_file (fst (splitFilename f)) (p_rank p) (mext (snd (splitFilename f)))) = Some (writeM (p_mat q)) /\
      F2 (rank_file (fst (splitFilename f)) (p_rank p) (txt ".idx")) = Some (write_idx show_G (p_ix q) (p_nb q)).
  Proof.
    intros E. unfold store.
    destruct (run_writes (fun _ => true) (store_writes show_G writeM f true p) F0 ltac:(reflexivity)) as (F1 & E1 & _).
    destruct (run_writes (fun _ => true) (store_writes show_G writeM f true q) F1 ltac:(reflexivity)) as (F2 & E2 & _ & Hl).
    exists F1, F2. split; [exact E1|]. split; [exact E2|]. rewrite E.
    destruct (unique_writes f true [q] q) as [U1 U2]; [repeat constructor; intros [] | left; reflexivity|]. cbn [flat_map] in U1, U2. rewrite app_nil_r in U1, U2.
    split; apply Hl.
    - rewrite store_writes_eq. left. reflexivity.
    - exact U1.
    - rewrite store_writes_eq. right. left. reflexivity.
    - intros c Hc. apply U2, Hc.
  Qed.
  (** A matrix stored under "name.mtx" and loaded under "name" is not found as long as there is an older file with the suffix ".mm". *)
  Theorem C58_stale_file_refuted (F0 : fs) f (p : @proc G M) old : snd (splitFilename f) = [] -> F0 (rank_file f (p_rank p) (txt ".mm")) = Some old ->
    exists F, store show_G writeM (fun _ => true) F0 (f ++ txt ".mtx") false p = ROk F tt /\
      F (rank_file f (p_rank p) (txt ".mtx")) = Some (writeM (p_mat p)) /\
      forall fuel o m, readM (o_mat o) old = ROk m tt -> load read_G ltG readM fuel F f (p_rank p) false o = Some (ROk (mkO m (o_ix o) (o_nb o)) tt).
  Proof.
    intros Hf Ho. unfold store.
    destruct (C58_split_filename (f ++ txt ".mtx")) as (_ & _ & _ & S4 & _). specialize (S4 f eq_refl).
    destruct (C58_split_filename f) as (S1 & _). rewrite Hf, app_nil_r in S1.
    destruct (run_writes (fun _ => true) (store_writes show_G writeM (f ++ txt ".mtx") false p) F0 ltac:(reflexivity)) as (F & E & Hfr & Hl).
    exists F. split; [exact E|]. rewrite store_writes_eq, S4 in Hfr, Hl. cbn [fst snd] in Hfr, Hl. change (mext (txt ".mtx")) with (txt ".mtx") in *. split.
    - apply Hl; [left; reflexivity|]. intros c [H|[]]. injection H as ->. reflexivity.
    - intros fuel o m Hm. rewrite load_eq, Hf, S1. unfold load_names. cbn [teqb]. change (teqb [] []) with true. cbn [open_first].
      rewrite Hfr, Ho, Hm; [reflexivity|]. intros c [H|[]]. injection H as H _. exfalso. revert H.
      change (txt ".mtx") with ("."%char :: txt "mtx"). change (txt ".mm") with ("."%char :: txt "mm"). intros H. apply C58_names_distinct in H.
      destruct H as [_ H]. discriminate H.
  Qed.
End Proofs.

(** C58: the part of one process can be read without communication, under the name with its rank. *)
Theorem C58_local_file {M} (readM : M -> text -> res M unit) (F : fs) pure r c m0 :
  F (rank_file pure r (txt ".mm")) = Some c -> load_seq readM F (pure ++ txt "_" ++ show_nat r) m0 = readM m0 c.
Proof.
  intros H. unfold load_seq. set (f := pure ++ txt "_" ++ show_nat r).
  assert (Hd : splitFilename f = (f, [])).
  { destruct (C58_split_filename f) as (S1 & _ & _ & _ & S5).
    assert (E : snd (splitFilename f) = []).
    { apply S5. intros (p & Hp). destruct (show_uint_head _ (to_uint_nonnil r)) as (c1 & u & E & _).
      pose proof (show_uint_digits (Nat.to_uint r)) as D. fold (show_nat r) in E, D.
      assert (Hl : exists a d, show_nat r = a ++ [d] /\ digitc d = true).
      { destruct (exists_last (l := show_nat r)) as (a & d & Ed). { rewrite E. discriminate. }
        exists a, d. split; [exact Ed|]. rewrite Ed in D. apply Forall_app in D. destruct D as [_ D]. apply Forall_inv in D. exact D. }
      destruct Hl as (a & d & Ea & Hd). unfold f in Hp. rewrite Ea, !app_assoc in Hp.
      destruct Hp as [Hp|Hp]; [change (txt ".mm") with (txt ".m" ++ ["m"%char]) in Hp | change (txt ".mtx") with (txt ".mt" ++ ["x"%char]) in Hp];
        rewrite !app_assoc in Hp; apply app_inj_tail in Hp; destruct Hp as [_ ->]; discriminate Hd. }
    rewrite E, app_nil_r in S1. destruct (splitFilename f) as [a b]. cbn [fst snd] in S1, E. congruence. }
  rewrite Hd. change (teqb [] []) with true. cbn [open_first]. replace (f ++ txt ".mm") with (rank_file pure r (txt ".mm")).
  - rewrite H. reflexivity.
  - unfold f, rank_file. rewrite <- !app_assoc. reflexivity.
Qed.

(** ** Global indices of type int meet the assumptions *)
Lemma int_io : global_io show_Z read_Z.
Proof.
  split.
  - intros g t. exact (read_Z_show [] g (" "%char :: t) ltac:(constructor) eq_refl).
  - intros g. destruct (show_Z_head g) as (c & t & E & Hc & _). eauto.
Qed.
Lemma int_good : reads_when_good read_Z.
Proof. intros s H. unfold read_Z, sentry. rewrite H. reflexivity. Qed.
Lemma int_asym : asymmetric Z.ltb.
Proof. intros a b H. apply Z.ltb_lt in H. apply Z.ltb_ge. lia. Qed.
(** C58 for integer global indices, without any assumption left *)
Theorem C58_store_load_int {M} (writeM : M -> text) (readM : M -> text -> res M unit) (F0 : fs) f (ps : list (@proc Z M)) ws :
  NoDup (map p_rank ps) ->
  (forall p, In p ps -> index_set Z.ltb (p_ix p) /\ rank_set (p_nb p)) ->
  Permutation ws (flat_map (store_writes show_Z writeM f true) ps) ->
  exists F, rrun (do_write (fun _ => true)) F0 ws = ROk F tt /\
    forall p m0 nb0 m, In p ps -> readM m0 (writeM (p_mat p)) = ROk m tt ->
      exists fuel0, forall fuel, fuel0 <= fuel ->
      load read_Z Z.ltb readM fuel F f (p_rank p) true (mkO m0 [] nb0) = Some (ROk (mkO m (p_ix p) (Some (p_nb p))) tt).
Proof.
  intros Hn Hv Hp.
  destruct (C58_store_load show_Z read_Z Z.ltb writeM readM int_io int_asym (fun _ => true) F0 f ps ws Hn Hv Hp) as (F & E & _ & H); [reflexivity|].
  exists F. split; [exact E|]. intros p m0 nb0 m Ip Hm. exists (S (length (p_ix p) + length (p_nb p))). intros fuel Hf.
  destruct (H p m0 nb0 m fuel Ip Hm) as [K _]; [lia..|]. exact K.
Qed.
(** Two processes: the index files in full, and what rank 1 loads *)
Definition ex_p0 : @proc Z nat := mkP 0 70 [mkI (-3)%Z 1 1%Z true; mkI 12%Z 0 3%Z false] [1%Z].
Definition ex_p1 : @proc Z nat := mkP 1 71 [] [].
Definition ex_F : fs :=
  match store show_Z show_nat (fun _ => true) no_files (txt "out.d/A.mtx") true ex_p0 with
  | ROk F _ => match store show_Z show_nat (fun _ => true) F (txt "out.d/A.mtx") true ex_p1 with ROk F _ => F | _ => no_files end
  | _ => no_files
  end.
Example C58_example :
  ex_F (txt "out.d/A_0.idx") = Some (txt "-3 1 1 1" ++ [nl] ++ txt "12 0 3 0" ++ [nl] ++ txt "neighbours: 1") /\
  ex_F (txt "out.d/A_1.idx") = Some (txt "neighbours:") /\ ex_F (txt "out.d/A_1.mtx") = Some (txt "71") /\
  load read_Z Z.ltb (fun _ t => ROk (length t) tt) 5 ex_F (txt "out.d/A") 0 true (mkO 0 [] None)
    = Some (ROk (mkO 2 [mkI (-3)%Z 1 1%Z true; mkI 12%Z 0 3%Z false] (Some [1%Z])) tt).
Proof. repeat split; vm_compute; reflexivity. Qed.
Example C58_example_hypotheses :
  NoDup (map p_rank [ex_p0; ex_p1]) /\ (forall p, In p [ex_p0; ex_p1] -> index_set Z.ltb (p_ix p) /\ rank_set (p_nb p)).
Proof.
  split; [repeat constructor; cbn; intuition congruence|].
  intros p [<-|[<-|[]]]; split; repeat constructor.
Qed.
