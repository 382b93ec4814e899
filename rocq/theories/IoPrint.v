(** * Pretty printing (C66): printvector, printmatrix and printSparseMatrix of dune/istl/io.hh *)
From Coq Require Import String Arith ZArith List Lia Bool.
From Verif Require Import Outcome MatUtils Foreach IoMatlab.
Import ListNotations.
Open Scope nat_scope.
Local Notation length := List.length.
Local Notation concat := List.concat.

Section Print.
  Context {A Fl : Type}.   (* the scalar type and std::ios_base::fmtflags *)
  Variable sci : Fl -> Fl. (* setf(scientific, floatfield) *)
  (** what is put on the stream; a token carries the width, the flags and the precision it is formatted with *)
  Inductive item := IStr (s : string) | INat (n : nat) | IInt (z : Z) | IVal (a : A).
  Inductive tok := Tok (i : item) (width : Z) (fl : Fl) (prec : Z) | Newline.
  (** std::ostream as far as io.hh uses it *)
  Record ostr := mkO { flags : Fl; precision : Z; width : Z; out : list tok }.
  (** stream operations: s << item (which resets the width to 0), s.width(w), s << std::endl (which does not), s.setf(scientific), s.flags(f), s.precision(p) *)
  Inductive op := Put (i : item) | Wid (w : Z) | Endl | Sci | Flags (f : Fl) | Prec (p : Z).
  Definition step (s : ostr) (o : op) : ostr :=
    match o with
    | Put i => mkO (flags s) (precision s) 0 (out s ++ [Tok i (width s) (flags s) (precision s)])
    | Wid w => mkO (flags s) (precision s) w (out s)
    | Endl => mkO (flags s) (precision s) (width s) (out s ++ [Newline])
    | Sci => mkO (sci (flags s)) (precision s) (width s) (out s)
    | Flags f => mkO f (precision s) (width s) (out s)
    | Prec p => mkO (flags s) p (width s) (out s)
    end.
  Definition run (s : ostr) (l : list op) : ostr := fold_left step l s.
  Definition str (s : string) : op := Put (IStr s).

  (** ** Model of the vector printer *)
  (** recursive_printvector, io.hh:53-78; [counter] is the int passed by reference *)
  Fixpoint rec_vec (columns w : Z) (rowtext : string) (v : @vtree A) (counter : Z) : outcome (list op * Z) :=
    match v with
    | VScalar a =>
        if (columns =? 0)%Z then UB else
        Ok ((if (Z.rem counter columns =? 0)%Z then [str rowtext; str " "; Wid 4; Put (IInt counter)] else [])
            ++ [str " "; Wid w; Put (IVal a)]
            ++ (if (Z.rem (counter + 1) columns =? 0)%Z then [Endl] else []), (counter + 1)%Z)
    | VNode l =>
        (fix loop (l : list vtree) (counter : Z) :=
           match l with
           | nil => Ok ([], counter)
           | x :: t => obind (rec_vec columns w rowtext x counter) (fun p => let '(o, c) := p in obind (loop t c) (fun q => let '(o', c') := q in Ok (o ++ o', c')))
           end) l counter
    end.
  (** N() and dim() of a vector; a vector has as many blocks as sub-vectors *)
  Definition blocks (v : @vtree A) : nat := match v with VScalar _ => 1 | VNode l => length l end.
  Definition dim (v : @vtree A) : nat := snd (fvfe v 0).
  (** printvector, io.hh:89-118 *)
  Definition printvector (s : ostr) (v : @vtree A) (title rowtext : string) (columns w prec : Z) : outcome ostr :=
    obind (rec_vec columns w rowtext v 0) (fun p => let '(o, counter) := p in
    if (columns =? 0)%Z then UB else
    Ok (run s ([Sci; Prec prec; str title; str " [blocks="; Put (INat (blocks v)); str ",dimension="; Put (INat (dim v)); str "]"; Endl] ++ o
              ++ (if (Z.rem counter columns =? 0)%Z then [] else [Endl]) ++ [Flags (flags s); Prec (precision s)]))).

  (** ** Specification *)
  (** es is cut into pieces L of k elements, the last one may be shorter, none is empty *)
  Definition cut {X} (k : nat) (es : list X) (L : list (list X)) : Prop :=
    concat L = es /\ forall i c, nth_error L i = Some c -> 1 <= length c <= k /\ (S i < length L -> length c = k).
  (** f applied to the pieces and their numbers, one after the other *)
  Fixpoint each {X} (f : nat -> X -> list tok) (i : nat) (L : list X) : list tok := match L with nil => nil | x :: t => f i x ++ each f (S i) t end.
  Section Fmt.
    Variables (fl : Fl) (prec : Z).
    (** a string, a number without a width, a number with width w *)
    Definition tstr (t : string) : tok := Tok (IStr t) 0 fl prec.
    Definition tnat (n : nat) : tok := Tok (INat n) 0 fl prec.
    Definition tint4 (z : Z) : tok := Tok (IInt z) 4 fl prec.
    Definition tval (w : Z) (a : A) : tok := Tok (IVal a) w fl prec.
    (** a line of printvector: the text, the number of the first entry, the entries *)
    Definition vec_line (rowtext : string) (columns : nat) (w : Z) (k : nat) (c : list A) : list tok :=
      [tstr rowtext; tstr " "; tint4 (Z.of_nat (k * columns))] ++ flat_map (fun a => [tstr " "; tval w a]) c ++ [Newline].
  End Fmt.

  (** ** Proofs *)
  Lemma run_app s l1 l2 : run s (l1 ++ l2) = run (run s l1) l2.
  Proof. unfold run. apply fold_left_app. Qed.
  Lemma entries_length (v : @vtree A) : dim v = length (entries v).
  Proof. unfold dim. rewrite C42_vector. reflexivity. Qed.
  (** rec_vec does one after the other what it does for single numbers *)
  Fixpoint rec_list (columns w : Z) (rowtext : string) (l : list A) (counter : Z) : outcome (list op * Z) :=
    match l with
    | nil => Ok ([], counter)
    | a :: t => obind (rec_vec columns w rowtext (VScalar a) counter) (fun p => let '(o, c) := p in obind (rec_list columns w rowtext t c) (fun q => let '(o', c') := q in Ok (o ++ o', c')))
    end.
  Lemma rec_list_app columns w rowtext l1 l2 c : rec_list columns w rowtext (l1 ++ l2) c =
    obind (rec_list columns w rowtext l1 c) (fun p => let '(o, c) := p in obind (rec_list columns w rowtext l2 c) (fun q => let '(o', c') := q in Ok (o ++ o', c'))).
  Proof.
    revert c. induction l1 as [|a t IH]; intros c; cbn [app rec_list obind]; [destruct (rec_list columns w rowtext l2 c) as [[o c']| |]; reflexivity|].
    destruct (rec_vec columns w rowtext (VScalar a) c) as [[o c']| |]; cbn [obind]; auto. rewrite IH. destruct (rec_list columns w rowtext t c') as [[o1 c1]| |]; cbn [obind]; auto.
    destruct (rec_list columns w rowtext l2 c1) as [[o2 c2]| |]; cbn [obind]; auto. now rewrite app_assoc.
  Qed.
  Lemma rec_vec_list columns w rowtext v c : rec_vec columns w rowtext v c = rec_list columns w rowtext (entries v) c.
  Proof.
    revert c. induction v as [a|l IH] using vtree_ind'; intros c.
    - cbn [entries rec_list]. destruct (rec_vec columns w rowtext (VScalar a) c) as [[o c']| |]; cbn [obind]; auto. now rewrite app_nil_r.
    - cbn [entries]. revert c. induction IH as [|x t HX HT IHt]; intros c; [reflexivity|]. cbn [flat_map]. rewrite rec_list_app, <- HX. cbn [rec_vec]. cbn [rec_vec] in IHt.
      destruct (rec_vec columns w rowtext x c) as [[o c']| |]; cbn [obind]; auto. rewrite IHt. reflexivity.
  Qed.
  Lemma each_app {X} (f : nat -> X -> list tok) i L1 L2 : each f i (L1 ++ L2) = each f i L1 ++ each f (i + length L1) L2.
  Proof. revert i. induction L1 as [|x t IH]; intros i; cbn [app each length]; [now rewrite Nat.add_0_r|]. rewrite IH, <- app_assoc. do 3 f_equal. lia. Qed.
  Lemma cut_exists {X} k (es : list X) : 0 < k -> exists L, cut k es L.
  Proof.
    intros K. remember (length es) as n eqn:EN. revert es EN. induction n as [n IH] using (well_founded_induction lt_wf). intros es ->. destruct es as [|x t]; [exists nil; split; [reflexivity|intros i c H; destruct i; discriminate]|].
    destruct (IH (length (skipn k (x :: t)))) with (es := skipn k (x :: t)) as (L & E & H); [rewrite skipn_length; cbn [length]; lia|reflexivity|].
    exists (firstn k (x :: t) :: L). split; [cbn [concat]; rewrite E; apply firstn_skipn|]. intros [|i] c HC; cbn [nth_error] in HC.
    - injection HC as <-. split; [rewrite firstn_length; cbn [length]; lia|]. intros HL. cbn [length] in HL. destruct L as [|c L]; [cbn in HL; lia|]. destruct (H 0 c eq_refl) as [[Hc _] _].
      assert (LS : length (skipn k (x :: t)) >= 1) by (rewrite <- E; cbn [concat]; rewrite app_length; lia). rewrite skipn_length in LS. rewrite firstn_length. lia.
    - destruct (H i c HC) as [H1 H2]. split; auto. intros HL. apply H2. cbn in HL. lia.
  Qed.
  Lemma cut_cons {X} k (c : list X) L es : cut k es (c :: L) -> exists es', es = c ++ es' /\ cut k es' L /\ 1 <= length c <= k /\ (L <> nil -> length c = k).
  Proof.
    intros [E H]. exists (concat L). split; [auto|]. split; [split; [auto|]|].
    - intros i c' HC. destruct (H (S i) c' HC) as [H1 H2]. split; auto. intros HL. apply H2. cbn. lia.
    - destruct (H 0 c eq_refl) as [H1 H2]. split; auto. intros NE. apply H2. destruct L; [congruence|cbn; lia].
  Qed.
  Definition body_ops (w : Z) (c : list A) : list op := flat_map (fun a => [str " "; Wid w; Put (IVal a)]) c.
  (** entries that do not complete a line *)
  Lemma rec_list_inside columns w rowtext k (c : list A) n : 0 < columns -> 0 < n -> n + length c < columns ->
    rec_list (Z.of_nat columns) w rowtext c (Z.of_nat (k * columns + n)) = Ok (body_ops w c, Z.of_nat (k * columns + n + length c)).
  Proof.
    intros K. revert n. induction c as [|a t IH]; intros n Hn HL; cbn [rec_list body_ops flat_map length]; [now rewrite Nat.add_0_r|]. cbn [length] in HL. cbn [rec_vec].
    destruct (Z.eqb_spec (Z.of_nat columns) 0); [lia|]. rewrite Z.rem_mod_nonneg, Z.rem_mod_nonneg by lia.
    assert (M1 : (Z.of_nat (k * columns + n) mod Z.of_nat columns)%Z = Z.of_nat n). { rewrite Nat2Z.inj_add, Nat2Z.inj_mul, Z.add_comm, Z.mod_add by lia. apply Z.mod_small. lia. }
    assert (M2 : ((Z.of_nat (k * columns + n) + 1) mod Z.of_nat columns)%Z = Z.of_nat (S n)). { replace (Z.of_nat (k * columns + n) + 1)%Z with (Z.of_nat (S n) + Z.of_nat k * Z.of_nat columns)%Z by lia. rewrite Z.mod_add by lia. apply Z.mod_small. lia. }
    rewrite M1, M2. destruct (Z.eqb_spec (Z.of_nat n) 0); [lia|]. destruct (Z.eqb_spec (Z.of_nat (S n)) 0); [lia|]. cbn [obind app].
    replace (Z.of_nat (k * columns + n) + 1)%Z with (Z.of_nat (k * columns + S n)) by lia. rewrite IH by lia. cbn [obind]. do 2 f_equal. lia.
  Qed.
  Lemma rec_list_line columns w rowtext k (c : list A) : 0 < columns -> 1 <= length c <= columns ->
    rec_list (Z.of_nat columns) w rowtext c (Z.of_nat (k * columns)) =
      Ok ([str rowtext; str " "; Wid 4; Put (IInt (Z.of_nat (k * columns)))] ++ body_ops w c ++ (if length c =? columns then [Endl] else []), Z.of_nat (k * columns + length c)).
  Proof.
    intros K HL. destruct c as [|a t] using rev_ind; [cbn in HL; lia|]. clear IHt. rename t into t0. rewrite app_length in *. cbn [length] in *. rewrite rec_list_app.
    assert (LAST : forall n, n = length t0 -> 0 < n -> rec_list (Z.of_nat columns) w rowtext [a] (Z.of_nat (k * columns + n)) = Ok ([str " "; Wid w; Put (IVal a)] ++ (if n + 1 =? columns then [Endl] else []), Z.of_nat (k * columns + (n + 1)))).
    { intros n -> Hn. cbn [rec_list rec_vec]. destruct (Z.eqb_spec (Z.of_nat columns) 0); [lia|]. rewrite Z.rem_mod_nonneg, Z.rem_mod_nonneg by lia.
      assert (M1 : (Z.of_nat (k * columns + length t0) mod Z.of_nat columns)%Z = Z.of_nat (length t0)). { rewrite Nat2Z.inj_add, Nat2Z.inj_mul, Z.add_comm, Z.mod_add by lia. apply Z.mod_small. lia. }
      rewrite M1. destruct (Z.eqb_spec (Z.of_nat (length t0)) 0); [lia|]. cbn [obind app].
      replace (Z.of_nat (k * columns + length t0) + 1)%Z with (Z.of_nat (length t0 + 1) + Z.of_nat k * Z.of_nat columns)%Z by lia. rewrite Z.mod_add by lia.
      destruct (Nat.eqb_spec (length t0 + 1) columns) as [EC|NC].
      - rewrite EC, Z.mod_same by lia. cbn. do 2 f_equal. lia.
      - rewrite Z.mod_small by lia. destruct (Z.eqb_spec (Z.of_nat (length t0 + 1)) 0); [lia|]. cbn. do 2 f_equal. lia. }
    destruct t0 as [|a0 t].
    - cbn [length rec_list obind app] in *. cbn [rec_vec]. destruct (Z.eqb_spec (Z.of_nat columns) 0); [lia|]. rewrite Z.rem_mod_nonneg, Z.rem_mod_nonneg by lia.
      rewrite Nat2Z.inj_mul, Z.mod_mul by lia. cbn [Z.eqb]. cbn [obind app].
      assert (M2 : ((Z.of_nat k * Z.of_nat columns + 1) mod Z.of_nat columns =? 0)%Z = (1 =? columns)).
      { replace (Z.of_nat k * Z.of_nat columns + 1)%Z with (1 + Z.of_nat k * Z.of_nat columns)%Z by lia. rewrite Z.mod_add by lia. destruct (Nat.eqb_spec 1 columns) as [EC|NC]; [subst columns; reflexivity|]. rewrite Z.mod_small by lia. reflexivity. }
      rewrite M2. change (0 + 1) with 1. rewrite app_nil_r. f_equal. f_equal. lia.
    - assert (FIRST : rec_list (Z.of_nat columns) w rowtext (a0 :: t) (Z.of_nat (k * columns)) = Ok ([str rowtext; str " "; Wid 4; Put (IInt (Z.of_nat (k * columns)))] ++ body_ops w (a0 :: t), Z.of_nat (k * columns + length (a0 :: t)))).
      { cbn [rec_list rec_vec]. destruct (Z.eqb_spec (Z.of_nat columns) 0); [lia|]. rewrite Z.rem_mod_nonneg, Z.rem_mod_nonneg by lia.
        assert (M1 : (Z.of_nat (k * columns) mod Z.of_nat columns)%Z = 0%Z) by (rewrite Nat2Z.inj_mul, Z.mod_mul by lia; auto).
        assert (M2 : ((Z.of_nat (k * columns) + 1) mod Z.of_nat columns)%Z = 1%Z). { replace (Z.of_nat (k * columns) + 1)%Z with (1 + Z.of_nat k * Z.of_nat columns)%Z by lia. rewrite Z.mod_add by lia. apply Z.mod_small. cbn [length] in HL. lia. }
        rewrite M1, M2. cbn [Z.eqb obind app]. replace (Z.of_nat (k * columns) + 1)%Z with (Z.of_nat (k * columns + 1)) by lia. rewrite rec_list_inside by (cbn [length] in HL; lia). cbn [obind]. f_equal. f_equal. cbn [length]. lia. }
      rewrite FIRST. cbn [obind]. rewrite (LAST (length (a0 :: t)) eq_refl) by (cbn; lia). cbn [obind]. f_equal. f_equal. unfold body_ops. rewrite flat_map_app, <- !app_assoc. reflexivity.
  Qed.
  Lemma run_body s w c : width s = 0%Z -> run s (body_ops w c) = mkO (flags s) (precision s) 0 (out s ++ flat_map (fun a => [tstr (flags s) (precision s) " "; tval (flags s) (precision s) w a]) c).
  Proof.
    revert s. induction c as [|a t IH]; intros s W0; cbn [body_ops flat_map].
    - rewrite app_nil_r. destruct s; cbn in *; subst; reflexivity.
    - rewrite run_app. fold (body_ops w t). rewrite IH by reflexivity. cbn. rewrite W0, <- !app_assoc. reflexivity.
  Qed.
  Lemma run_lines columns w rowtext L : 0 < columns -> forall k es s, cut columns es L -> width s = 0%Z -> exists o n,
    rec_list (Z.of_nat columns) w rowtext es (Z.of_nat (k * columns)) = Ok (o, n) /\
    run s (o ++ (if (Z.rem n (Z.of_nat columns) =? 0)%Z then [] else [Endl])) = mkO (flags s) (precision s) 0 (out s ++ each (vec_line (flags s) (precision s) rowtext columns w) k L).
  Proof.
    intros K. induction L as [|c L IH]; intros k es s CU W0.
    - destruct CU as [E _]. cbn in E. subst es. cbn [rec_list]. eexists _, _. split; [reflexivity|]. rewrite Z.rem_mod_nonneg, Nat2Z.inj_mul, Z.mod_mul by lia. cbn. rewrite app_nil_r. destruct s; cbn in *; subst; reflexivity.
    - destruct (cut_cons _ _ _ _ CU) as (es' & -> & CU' & HL & FULL). rewrite rec_list_app, rec_list_line by auto. cbn [obind].
      set (s1 := run s ([str rowtext; str " "; Wid 4; Put (IInt (Z.of_nat (k * columns)))] ++ body_ops w c)).
      assert (S1 : s1 = mkO (flags s) (precision s) 0 (out s ++ [tstr (flags s) (precision s) rowtext; tstr (flags s) (precision s) " "; tint4 (flags s) (precision s) (Z.of_nat (k * columns))] ++ flat_map (fun a => [tstr (flags s) (precision s) " "; tval (flags s) (precision s) w a]) c)).
      { subst s1. rewrite run_app, run_body by reflexivity. cbn. rewrite W0, <- !app_assoc. reflexivity. }
      destruct (Nat.eqb_spec (length c) columns) as [EC|NC].
      + rewrite EC. replace (k * columns + columns) with (S k * columns) by lia.
        set (s2 := run s1 [Endl]).
        destruct (IH (S k) es' s2 CU') as (o & n & E & R). { subst s2. rewrite S1. reflexivity. }
        rewrite E. cbn [obind]. eexists _, _. split; [reflexivity|]. rewrite <- app_assoc, run_app.
        assert (E2 : run s ([str rowtext; str " "; Wid 4; Put (IInt (Z.of_nat (k * columns)))] ++ body_ops w c ++ [Endl]) = s2) by (rewrite (app_assoc _ (body_ops w c)), run_app; reflexivity).
        rewrite E2, R. subst s2. rewrite S1. cbn. f_equal. unfold vec_line. rewrite <- !app_assoc. reflexivity.
      + destruct L as [|c' L']; [|exfalso; apply NC, FULL; discriminate]. destruct CU' as [E' _]. cbn in E'. subst es'. cbn [rec_list obind]. eexists _, _. split; [reflexivity|].
        rewrite Z.rem_mod_nonneg by lia. replace (Z.of_nat (k * columns + length c)) with (Z.of_nat (length c) + Z.of_nat k * Z.of_nat columns)%Z by lia. rewrite Z.mod_add, Z.mod_small by lia.
        destruct (Z.eqb_spec (Z.of_nat (length c)) 0); [lia|]. rewrite !app_nil_r, run_app. fold s1. rewrite S1. cbn. rewrite app_nil_r. f_equal. unfold vec_line. rewrite <- !app_assoc. reflexivity.
  Qed.
  (** C66 (vectors): the header, then all numbers in order, [columns] per line, each line starting with the text and the number of its first entry; the format of the stream is restored *)
  Theorem C66_vector s v title rowtext columns w prec : 0 < columns -> exists L, cut columns (entries v) L /\
    printvector s v title rowtext (Z.of_nat columns) w prec = Ok (mkO (flags s) (precision s) 0 (out s ++
      (Tok (IStr title) (width s) (sci (flags s)) prec :: map (fun i => Tok i 0%Z (sci (flags s)) prec) [IStr " [blocks="; INat (blocks v); IStr ",dimension="; INat (length (entries v)); IStr "]"] ++ [Newline])
      ++ each (vec_line (sci (flags s)) prec rowtext columns w) 0 L)).
  Proof.
    intros K. destruct (cut_exists columns (entries v) K) as (L & CU). exists L. split; [exact CU|]. unfold printvector. rewrite rec_vec_list.
    set (s1 := run s [Sci; Prec prec; str title; str " [blocks="; Put (INat (blocks v)); str ",dimension="; Put (INat (dim v)); str "]"; Endl]).
    destruct (run_lines columns w rowtext L K 0 (entries v) s1 CU eq_refl) as (o & n & E & R). cbn [Nat.mul] in E. change (Z.of_nat 0) with 0%Z in E. rewrite E. cbn [obind]. destruct (Z.eqb_spec (Z.of_nat columns) 0); [lia|].
    f_equal. rewrite run_app. fold s1. rewrite app_assoc, run_app, R. subst s1. rewrite entries_length. cbn. f_equal. rewrite <- !app_assoc. reflexivity.
  Qed.
  (** Deviation: columns = 0 is not rejected: integer division by zero, for every vector *)
  Theorem C66_columns_zero_refuted s v title rowtext w prec : printvector s v title rowtext 0 w prec = UB.
  Proof. unfold printvector. destruct (rec_vec 0 w rowtext v 0) as [[o n]|e|] eqn:E; cbn [obind]; auto. exfalso. rewrite rec_vec_list in E. destruct (entries v) as [|a l]; cbn in E; discriminate. Qed.

  (** ** Model of the matrix printer *)
  (** print_row for numbers, io.hh:144-156 *)
  Definition pnum (w : Z) (a : A) : list op := [str " "; Wid w; Put (IVal a)].
  (** fill_row, io.hh:130-138; the parameter m is an int *)
  Definition fill_row (w : Z) (m : Z) : list op := concat (repeat [str " "; Wid w; str "."] (Z.to_nat m)).
  Section Loop.
    Context {X : Type} (rec : X -> list op).
    (** the block of column j, io.hh:186-193: A[i].find(j), print_row or [d] *)
    Fixpoint lookup (j : nat) (d : list op) (row : list (nat * X)) : list op :=
      match row with nil => d | (j', b) :: es => if j' =? j then rec b else lookup j d es end.
  End Loop.
  (** print_row for matrices, io.hh:165-202; therow and the offset I are counted in size_type (no overflow).  The column offset J is handed down but not used. *)
  Fixpoint print_row (w : Z) (t : @bmv A) (I therow : nat) : list op :=
    match t with
    | NumV a => pnum w a
    | FieldV n m f =>
        (fix rloop (f : list (list A)) (i0 : nat) := match f with
          | nil => []
          | row :: fs => (if (i0 <=? therow) && (therow <? i0 + 1) then flat_map (pnum w) row else []) ++ rloop fs (i0 + 1)
          end) f I
    | CrsV bt M rows =>
        (fix rloop (rows : list (list (nat * bmv))) (i i0 : nat) := match rows with
          | nil => []
          | row :: rs => (if (i0 <=? therow) && (therow <? i0 + rowdim_at (shape t) i)
                          then flat_map (fun j => lookup (fun b => print_row w b i0 therow) j (fill_row w (sint (coldim_at (shape t) j))) row) (seq 0 M) else [])
                         ++ rloop rs (S i) (i0 + rowdim_at (shape t) i)
          end) rows 0 I
    end.
  (** N() and M() *)
  Definition mN (t : @bmv A) : nat := match t with NumV _ => 1 | FieldV n _ _ => n | CrsV _ _ rows => length rows end.
  Definition mM (t : @bmv A) : nat := match t with NumV _ => 1 | FieldV _ m _ => m | CrsV _ m _ => m end.
  (** printmatrix, io.hh:213-246 *)
  Definition printmatrix (s : ostr) (t : @bmv A) (title rowtext : string) (w prec : Z) : ostr :=
    run s ([Sci; Prec prec; str title; str " [n="; Put (INat (mN t)); str ",m="; Put (INat (mM t)); str ",rowdim="; Put (INat (rowdim (shape t))); str ",coldim="; Put (IInt (coldim (shape t))); str "]"; Endl]
      ++ flat_map (fun i => [str rowtext; str " "; Wid 4; Put (INat i)] ++ print_row w t 0 i ++ [Endl]) (seq 0 (rowdim (shape t)))
      ++ [Flags (flags s); Prec (precision s)]).

  (** ** Specification *)
  (** the cells of one scalar row: the stored numbers at their columns, nothing elsewhere *)
  Definition row_cells (t : @bmv A) (C r : nat) (cells : list (option A)) : Prop :=
    length cells = C /\ forall c a, nth_error cells c = Some (Some a) <-> stored t r c a.
  Definition cell_tok (fl : Fl) (prec w : Z) (c : option A) : list tok := [tstr fl prec " "; match c with Some a => tval fl prec w a | None => Tok (IStr ".") w fl prec end].
  Definition mat_line (fl : Fl) (prec : Z) (rowtext : string) (w : Z) (r : nat) (cells : list (option A)) : list tok :=
    [tstr fl prec rowtext; tstr fl prec " "; Tok (INat r) 4 fl prec] ++ flat_map (cell_tok fl prec w) cells ++ [Newline].

  (** ** Proofs *)
  Definition cell_ops (w : Z) (c : option A) : list op := [str " "; Wid w; match c with Some a => Put (IVal a) | None => str "." end].
  Lemma run_cells s w cells : width s = 0%Z -> run s (flat_map (cell_ops w) cells) = mkO (flags s) (precision s) 0 (out s ++ flat_map (cell_tok (flags s) (precision s) w) cells).
  Proof.
    revert s. induction cells as [|c t IH]; intros s W0; cbn [flat_map].
    - rewrite app_nil_r. destruct s; cbn in *; subst; reflexivity.
    - rewrite run_app, IH by (destruct c; reflexivity). destruct c; cbn; rewrite W0, <- !app_assoc; reflexivity.
  Qed.
  Lemma fill_cells w n : (Z.of_nat n <= int_max)%Z -> fill_row w (sint (Z.of_nat n)) = flat_map (cell_ops w) (repeat None n).
  Proof. intros H. rewrite sint_small by lia. unfold fill_row. rewrite Nat2Z.id. clear H. induction n as [|n IH]; cbn [repeat concat flat_map]; [reflexivity|]. now rewrite IH. Qed.
  Lemma flat_map_len_cells {X} (f : X -> list op) (g : X -> list (option A)) w l : (forall x, In x l -> f x = flat_map (cell_ops w) (g x)) -> flat_map f l = flat_map (cell_ops w) (flat_map g l).
  Proof. induction l as [|x t IH]; intros H; cbn [flat_map]; [reflexivity|]. rewrite flat_map_app, H, IH; auto; [intros; apply H; right; auto|left; auto]. Qed.
  Lemma choice_list {X} (P : nat -> X -> Prop) n : (forall i, i < n -> exists x, P i x) -> exists l, length l = n /\ forall i x, nth_error l i = Some x -> P i x.
  Proof.
    induction n as [|n IH]; intros H; [exists nil; split; [reflexivity|intros [|i] x HX; discriminate]|]. destruct IH as (l & L & HL); [intros; apply H; lia|]. destruct (H n) as (x & HX); [lia|]. exists (l ++ [x]). rewrite app_length. cbn. split; [lia|].
    intros i y HY. destruct (Nat.lt_ge_cases i (length l)); [rewrite nth_error_app1 in HY by auto; eauto|]. rewrite nth_error_app2 in HY by auto. destruct (i - length l) as [|q] eqn:EQ; [|destruct q; discriminate]. cbn in HY. injection HY as <-. replace i with n by lia. auto.
  Qed.
  (** the cells of consecutive pieces of the widths ws *)
  Lemma concat_nth (Ls : list (list (option A))) ws : length Ls = length ws -> (forall j l, nth_error Ls j = Some l -> length l = nth j ws 0) ->
    forall c y, nth_error (concat Ls) c = Some y <-> exists j l c', nth_error Ls j = Some l /\ nth_error l c' = Some y /\ c = list_sum (firstn j ws) + c'.
  Proof.
    revert ws. induction Ls as [|l Ls IH]; intros [|w ws] HL HW c y; try discriminate.
    - cbn. split; [destruct c; discriminate|]. intros (j & l & c' & H & _). destruct j; discriminate.
    - cbn [concat]. assert (L0 := HW 0 l eq_refl). cbn in L0. injection HL as HL. assert (HW' : forall j l0, nth_error Ls j = Some l0 -> length l0 = nth j ws 0) by (intros j l0 H; apply (HW (S j) l0 H)).
      destruct (Nat.lt_ge_cases c (length l)) as [HC|HC].
      + rewrite nth_error_app1 by auto. split.
        * intros H. exists 0, l, c. auto.
        * intros ([|j] & l0 & c' & H1 & H2 & H3); cbn [nth_error firstn] in *; [injection H1 as <-; cbn in H3; congruence|]. exfalso. unfold list_sum in H3. cbn [fold_right] in H3. lia.
      + rewrite nth_error_app2 by auto. rewrite (IH ws HL HW'). split.
        * intros (j & l0 & c' & H1 & H2 & H3). exists (S j), l0, c'. repeat split; auto. cbn [firstn]. unfold list_sum in *. cbn [fold_right]. lia.
        * intros ([|j] & l0 & c' & H1 & H2 & H3); cbn [nth_error firstn] in *.
          -- injection H1 as <-. cbn in H3. assert (c' < length l) by (apply nth_error_Some; congruence). lia.
          -- exists j, l0, c'. repeat split; auto. unfold list_sum in *. cbn [fold_right] in H3. lia.
  Qed.
  Lemma concat_len (Ls : list (list (option A))) ws : length Ls = length ws -> (forall j l, nth_error Ls j = Some l -> length l = nth j ws 0) -> length (concat Ls) = list_sum ws.
  Proof.
    revert ws. induction Ls as [|l Ls IH]; intros [|w ws] HL HW; try discriminate; [reflexivity|]. cbn [concat]. rewrite app_length, (IH ws); [|injection HL; auto|intros j l0 H; apply (HW (S j) l0 H)]. assert (L0 := HW 0 l eq_refl). cbn in L0. unfold list_sum. cbn [fold_right]. lia.
  Qed.
  Lemma flat_map_nth_seq {X Y} (f : nat -> list Y) (Ls : list (list X)) (g : list X -> list Y) : (forall j l, nth_error Ls j = Some l -> f j = g l) -> flat_map f (seq 0 (length Ls)) = flat_map g Ls.
  Proof.
    intros H. assert (G : forall Ls s, (forall j l, nth_error Ls j = Some l -> f (s + j) = g l) -> flat_map f (seq s (length Ls)) = flat_map g Ls).
    { clear. induction Ls as [|l Ls IH]; intros s H; cbn [length seq flat_map]; [reflexivity|]. f_equal; [rewrite <- (H 0 l eq_refl); f_equal; lia|]. apply IH. intros j l0 HL. rewrite <- (H (S j) l0 HL). f_equal. lia. }
    apply (G Ls 0). exact H.
  Qed.
  Lemma lookup_in {X} (rec : X -> list op) j d (row : list (nat * X)) b : NoDup (map fst row) -> In (j, b) row -> lookup rec j d row = rec b.
  Proof. induction row as [|[j' b'] es IH]; intros ND HI; [destruct HI|]. cbn [lookup]. inversion ND as [|? ? NI ND']; subst. destruct HI as [[= <- <-]|HI]; [now rewrite Nat.eqb_refl|]. destruct (Nat.eqb_spec j' j) as [->|NE]; [exfalso; apply NI; apply in_map_iff; exists (j, b); auto|auto]. Qed.
  Lemma lookup_notin {X} (rec : X -> list op) j d (row : list (nat * X)) : ~ In j (map fst row) -> lookup rec j d row = d.
  Proof. induction row as [|[j' b'] es IH]; intros NI; [reflexivity|]. cbn [lookup]. cbn in NI. destruct (Nat.eqb_spec j' j); [tauto|]. apply IH. tauto. Qed.
  Lemma nodup_fst_inj {X} (l : list (nat * X)) j b b' : NoDup (map fst l) -> In (j, b) l -> In (j, b') l -> b = b'.
  Proof.
    induction l as [|[j1 b1] es IH]; intros ND H H'; [destruct H|]. cbn in ND. inversion ND as [|? ? NI ND']; subst. destruct H as [H|H], H' as [H'|H']; [congruence| | |auto].
    - exfalso. apply NI. injection H as H1 H2. subst. apply in_map_iff. exists (j, b'). auto.
    - exfalso. apply NI. injection H' as H1 H2. subst. apply in_map_iff. exists (j, b). auto.
  Qed.
  Definition prints (t : @bmv A) : Prop := forall R C, flat_dims (shape t) R C -> fields_ok t -> no_empty_row (shape t) -> no_empty_col (shape t) -> distinct_cols (shape t) -> (Z.of_nat C <= int_max)%Z ->
    (forall r c a, stored t r c a -> r < R /\ c < C) /\
    forall w r, r < R -> exists cells, row_cells t C r cells /\ forall I, print_row w t I (I + r) = flat_map (cell_ops w) cells.
  Lemma all_prints t : prints t.
  Proof.
    induction t as [a|n m f|bt M rows IH] using bmv_ind'; intros R C FD FO NR NC DC CB; pose proof int_max_W as IW.
    - inversion FD; subst. split; [intros r c a' H; inversion H; subst; lia|]. intros w r Hr. exists [Some a]. split; [|reflexivity]. split; [reflexivity|]. assert (r = 0) as -> by lia.
      intros c b. split; [destruct c as [|[|c]]; cbn; intros H; try discriminate; injection H as <-; constructor|intros H; inversion H; subst; reflexivity].
    - cbn [shape] in *. inversion FD; subst. inversion FO as [|? ? ? LF LR|]; subst.
      assert (ST : forall r c a, stored (FieldV (length f) C f) r c a <-> exists row, nth_error f r = Some row /\ nth_error row c = Some a).
      { intros r c a. split; [intros H; inversion H; subst; eauto|intros (row & H1 & H2); econstructor; eauto]. }
      split; [intros r c a H; apply ST in H; destruct H as (row & H1 & H2); split; [apply nth_error_Some; congruence|]; rewrite <- (LR row) by (eapply nth_error_In; eauto); apply nth_error_Some; congruence|].
      intros w r Hr. destruct (nth_error f r) as [row|] eqn:ER; [|apply nth_error_None in ER; lia]. exists (map Some row). split.
      + split; [rewrite map_length; apply LR; eapply nth_error_In; eauto|]. intros c a. rewrite ST, nth_error_map. split.
        * intros H. destruct (nth_error row c) as [x|] eqn:EX; [|discriminate]. injection H as <-. eauto.
        * intros (row' & H1 & H2). assert (row' = row) by congruence. subst. now rewrite H2.
      + intros I. cbn [print_row]. match goal with |- ?g f I = _ => set (rloop := g) end.
        assert (G0 : forall fs i0, I + r < i0 -> rloop fs i0 = []).
        { induction fs as [|x fs IHf]; intros i0 Hi; [reflexivity|]. change ((if (i0 <=? I + r) && (I + r <? i0 + 1) then flat_map (pnum w) x else []) ++ rloop fs (i0 + 1) = []). rewrite IHf by lia. destruct (Nat.leb_spec i0 (I + r)); [lia|]. reflexivity. }
        assert (G : forall fs k, k <= r -> nth_error fs (r - k) = Some row -> rloop fs (I + k) = flat_map (pnum w) row).
        { induction fs as [|x fs IHf]; intros k Hk HN; [destruct (r - k); discriminate|]. change ((if (I + k <=? I + r) && (I + r <? I + k + 1) then flat_map (pnum w) x else []) ++ rloop fs (I + k + 1) = flat_map (pnum w) row).
          destruct (Nat.eq_dec k r) as [EK|NE].
          - subst k. rewrite Nat.sub_diag in HN. cbn in HN. injection HN as ->. destruct (Nat.leb_spec (I + r) (I + r)); [|lia]. destruct (Nat.ltb_spec (I + r) (I + r + 1)); [|lia]. cbn [andb]. rewrite G0 by lia. apply app_nil_r.
          - destruct (Nat.leb_spec (I + k) (I + r)); [|lia]. destruct (Nat.ltb_spec (I + r) (I + k + 1)); [lia|]. cbn [andb app]. replace (I + k + 1) with (I + (k + 1)) by lia. apply IHf; [lia|]. replace (r - k) with (S (r - (k + 1))) in HN by lia. exact HN. }
        rewrite <- (Nat.add_0_r I) at 1. rewrite (G f 0) by (rewrite ?Nat.sub_0_r; auto; lia). clear. induction row as [|a t IH]; cbn [map flat_map]; [reflexivity|]. now rewrite IH.
    - cbn [shape] in FD, NR, NC, DC. inversion FD as [| |? ? ? hs ws LH LW HS HE EBT ER]; subst. inversion FO as [| |? ? ? FO']; subst.
      rewrite map_length in LH. rewrite map_length in HS, HE.
      assert (HB : forall i j b, i < length rows -> In (j, b) (nth i rows nil) -> j < length ws /\ flat_dims (shape b) (nth i hs 0) (nth j ws 0)).
      { intros i j b Hi HI. apply HE; auto. rewrite nth_shape. apply in_shape; auto. }
      assert (RD : forall i, i < length rows -> rowdim_at (shape (CrsV bt (length ws) rows)) i = nth i hs 0).
      { intros i Hi. cbn [shape]. apply (C25_rowdim_at bt (length ws) _ hs ws i); rewrite ?map_length; auto. }
      assert (CD : forall j, j < length ws -> coldim_at (shape (CrsV bt (length ws) rows)) j = Z.of_nat (nth j ws 0)).
      { intros j Hj. cbn [shape]. apply (C25_coldim_at bt (length ws) _ hs ws j); rewrite ?map_length; auto. pose proof (list_sum_part ws j Hj). lia. }
      assert (ST := stored_crs bt (length ws) rows hs ws LH eq_refl HS HB NR NC).
      assert (NDR : forall i, i < length rows -> NoDup (map fst (nth i rows nil))).
      { intros i Hi. inversion DC as [| |? ? ? DC']; subst. destruct (DC' (map (fun e : nat * bmv => (fst e, shape (snd e))) (nth i rows nil))) as [K _]; [apply in_map; apply nth_In; auto|]. rewrite fst_shape in K. exact K. }
      assert (PB := sub_ok bt (length ws) rows FO' NR NC DC).
      assert (PR : forall i j b, i < length rows -> In (j, b) (nth i rows nil) -> (forall r c a, stored b r c a -> r < nth i hs 0 /\ c < nth j ws 0) /\
        forall w r, r < nth i hs 0 -> exists cells, row_cells b (nth j ws 0) r cells /\ forall I, print_row w b I (I + r) = flat_map (cell_ops w) cells).
      { intros i j b Hi HI. destruct (PB i j b Hi HI) as (X1 & X3 & X4 & X5). destruct (HB i j b Hi HI) as [HJ D]. assert (HWJ := list_sum_part ws j HJ).
        apply (IH (nth i rows nil) j b ltac:(apply nth_In; auto) HI _ _ D X1 X4 X5 X3). lia. }
      split.
      + intros r c a H. apply ST in H. destruct H as (i & j & b & r' & c' & Hi & HI & H & -> & ->). destruct (PR i j b Hi HI) as [BD _]. destruct (BD _ _ _ H). destruct (HB i j b Hi HI) as [HJ _]. split; apply partition_bound; auto; lia.
      + intros w r Hr.
        (* the block row of r *)
        assert (LOC : exists i r', i < length hs /\ r' < nth i hs 0 /\ r = list_sum (firstn i hs) + r').
        { clear - Hr. revert r Hr. induction hs as [|h t IHh]; intros r Hr; [cbn in Hr; lia|]. destruct (Nat.lt_ge_cases r h) as [H|H]; [exists 0, r; cbn; repeat split; auto; lia|].
          destruct (IHh (r - h)) as (i & r' & H1 & H2 & H3); [unfold list_sum in *; cbn [fold_right] in Hr; lia|]. exists (S i), r'. cbn [length nth firstn]. repeat split; [lia|auto|]. unfold list_sum in *. cbn [fold_right]. lia. }
        destruct LOC as (i & r' & Hi & Hr' & ER). rewrite LH in Hi.
        assert (CH : forall j, j < length ws -> exists l, length l = nth j ws 0 /\ (forall c a, nth_error l c = Some (Some a) <-> exists b, In (j, b) (nth i rows nil) /\ stored b r' c a) /\
           forall I, lookup (fun b => print_row w b I (I + r')) j (fill_row w (sint (coldim_at (shape (CrsV bt (length ws) rows)) j))) (nth i rows nil) = flat_map (cell_ops w) l).
        { intros j Hj. destruct (in_dec Nat.eq_dec j (map fst (nth i rows nil))) as [HI|HI].
          - apply in_map_iff in HI. destruct HI as ([j' b] & EJ & HI). cbn in EJ. subst j'. destruct (PR i j b Hi HI) as [BD P]. destruct (P w r' Hr') as (cells & [LC RC] & PC). exists cells. split; [auto|]. split.
            + intros c a. rewrite RC. split; [eauto|]. intros (b' & HI' & H). assert (b' = b); [|subst; auto]. apply (nodup_fst_inj (nth i rows nil) j); auto.
            + intros I. rewrite (lookup_in _ j _ _ b); auto.
          - exists (repeat None (nth j ws 0)). split; [apply repeat_length|]. split.
            + intros c a. split.
              * intros H. apply nth_error_In in H. apply repeat_spec in H. discriminate.
              * intros (b & H & _). exfalso. apply HI. apply in_map_iff. exists (j, b). auto.
            + intros I. rewrite lookup_notin by auto. rewrite CD by auto. apply fill_cells. pose proof (list_sum_part ws j Hj). lia. }
        destruct (choice_list _ (length ws) CH) as (Ls & LL & HLs).
        assert (LEN : forall j l, nth_error Ls j = Some l -> length l = nth j ws 0) by (intros j l H; apply (HLs j l H)).
        exists (concat Ls). split.
        * split; [apply concat_len; auto|]. intros c a. rewrite (concat_nth Ls ws LL LEN), ST. split.
          -- intros (j & l & c' & H1 & H2 & ->). destruct (HLs j l H1) as (_ & K & _). apply K in H2. destruct H2 as (b & HI & H). exists i, j, b, r', c'. auto.
          -- intros (i' & j & b & r1 & c' & Hi' & HI & H & E1 & ->). destruct (PR i' j b Hi' HI) as [BD _]. destruct (BD _ _ _ H) as [B1 B2].
             assert (EI : i' = i). { destruct (Nat.eq_dec i i'); auto. exfalso. apply (partition_disjoint hs i i' r' r1); auto; lia. } subst i'. assert (r1 = r') by lia. subst r1.
             destruct (HB i j b Hi HI) as [HJ _]. destruct (nth_error Ls j) as [l|] eqn:EL; [|apply nth_error_None in EL; lia]. exists j, l, c'. split; auto. split; auto. apply (HLs j l EL). eauto.
        * intros I. cbn [print_row]. match goal with |- ?g rows 0 I = _ => set (rloop := g) end.
          set (line := fun i0 row => flat_map (fun j => lookup (fun b => print_row w b i0 (I + r)) j (fill_row w (sint (coldim_at (shape (CrsV bt (length ws) rows)) j))) row) (seq 0 (length ws))).
          assert (UN : forall row rs k i0, rloop (row :: rs) k i0 = (if (i0 <=? I + r) && (I + r <? i0 + rowdim_at (shape (CrsV bt (length ws) rows)) k) then line i0 row else []) ++ rloop rs (S k) (i0 + rowdim_at (shape (CrsV bt (length ws) rows)) k)) by reflexivity.
          assert (G0 : forall rs k i0, I + r < i0 -> rloop rs k i0 = []).
          { induction rs as [|x rs IHr]; intros k i0 Hk; [reflexivity|]. rewrite UN, IHr by lia. destruct (Nat.leb_spec i0 (I + r)); [lia|]. reflexivity. }
          assert (G : forall rs k, k <= i -> skipn k rows = rs -> rloop rs k (I + list_sum (firstn k hs)) = line (I + list_sum (firstn i hs)) (nth i rows nil)).
          { induction rs as [|x rs IHr]; intros k Hk SK; [apply (f_equal (@List.length _)) in SK; rewrite skipn_length in SK; cbn in SK; lia|].
            assert (SK' : skipn (S k) rows = rs). { clear - SK. revert k SK. induction rows as [|y t IHt]; intros [|k] SK; cbn in *; try discriminate; [injection SK; auto|]. apply IHt. auto. }
            rewrite UN, RD by lia. assert (SS : I + list_sum (firstn k hs) + nth k hs 0 = I + list_sum (firstn (S k) hs)) by (rewrite sum_firstn_S by lia; lia). rewrite SS.
            destruct (Nat.eq_dec k i) as [EK|NE].
            - subst k. assert (EX : nth i rows nil = x). { rewrite <- (firstn_skipn i rows), SK, app_nth2; rewrite firstn_length_le by lia; [|lia]. now rewrite Nat.sub_diag. }
              rewrite sum_firstn_S in * by lia. destruct (Nat.leb_spec (I + list_sum (firstn i hs)) (I + r)); [|lia]. destruct (Nat.ltb_spec (I + r) (I + (list_sum (firstn i hs) + nth i hs 0))); [|lia]. cbn [andb]. rewrite G0 by lia. rewrite EX. apply app_nil_r.
            - assert (MONO : list_sum (firstn (S k) hs) <= list_sum (firstn i hs)). { replace i with (S k + (i - S k)) by lia. rewrite <- (firstn_skipn (S k) (firstn (S k + (i - S k)) hs)). rewrite firstn_firstn, Nat.min_l, list_sum_app by lia. lia. }
              destruct (Nat.ltb_spec (I + r) (I + list_sum (firstn (S k) hs))); [lia|]. rewrite andb_false_r. cbn [app]. apply IHr; auto. lia. }
          specialize (G rows 0 ltac:(lia) eq_refl). change (list_sum (firstn 0 hs)) with 0 in G. rewrite Nat.add_0_r in G. rewrite G. unfold line. rewrite <- LL.
          rewrite (flat_map_nth_seq _ Ls (flat_map (cell_ops w))).
          -- clear. induction Ls as [|l Ls IHl]; cbn [concat flat_map]; [reflexivity|]. now rewrite flat_map_app, IHl.
          -- intros j l HL. destruct (HLs j l HL) as (_ & _ & K). rewrite <- (K (I + list_sum (firstn i hs))). rewrite LL. replace (I + list_sum (firstn i hs) + r') with (I + r) by lia. reflexivity.
  Qed.
  Lemma run_mat_lines w rowtext (t : @bmv A) (Ls : list (list (option A))) k s : width s = 0%Z ->
    (forall r cells, nth_error Ls r = Some cells -> print_row w t 0 (k + r) = flat_map (cell_ops w) cells) ->
    run s (flat_map (fun i => [str rowtext; str " "; Wid 4; Put (INat i)] ++ print_row w t 0 i ++ [Endl]) (seq k (length Ls))) =
      mkO (flags s) (precision s) 0 (out s ++ each (mat_line (flags s) (precision s) rowtext w) k Ls).
  Proof.
    revert k s. induction Ls as [|cells Ls IH]; intros k s W0 H; cbn [length seq flat_map each].
    - rewrite app_nil_r. destruct s; cbn in *; subst; reflexivity.
    - assert (E0 := H 0 cells eq_refl). rewrite Nat.add_0_r in E0. rewrite E0. rewrite run_app.
      set (s1 := run s ([str rowtext; str " "; Wid 4; Put (INat k)] ++ flat_map (cell_ops w) cells ++ [Endl])).
      assert (S1 : s1 = mkO (flags s) (precision s) 0 (out s ++ mat_line (flags s) (precision s) rowtext w k cells)).
      { subst s1. rewrite run_app, run_app, run_cells by reflexivity. cbn. rewrite W0. unfold mat_line. rewrite <- !app_assoc. reflexivity. }
      rewrite IH; [|rewrite S1; reflexivity|intros r c HC; rewrite <- (H (S r) c HC); f_equal; lia]. rewrite S1. cbn. now rewrite <- app_assoc.
  Qed.
  (** C66 (matrices): the header with the sizes, then one line for every scalar row, in order: the text, the number of the row, and a cell for every scalar column, holding the stored number or a dot *)
  Theorem C66_matrix s t R C title rowtext w prec : flat_dims (shape t) R C -> distinct_cols (shape t) -> fields_ok t -> no_empty_row (shape t) -> no_empty_col (shape t) -> (Z.of_nat C <= int_max)%Z ->
    exists Ls, length Ls = R /\ (forall r cells, nth_error Ls r = Some cells -> row_cells t C r cells) /\
    printmatrix s t title rowtext w prec = mkO (flags s) (precision s) 0 (out s ++
      (Tok (IStr title) (width s) (sci (flags s)) prec :: map (fun i => Tok i 0%Z (sci (flags s)) prec) [IStr " [n="; INat (mN t); IStr ",m="; INat (mM t); IStr ",rowdim="; INat R; IStr ",coldim="; IInt (Z.of_nat C); IStr "]"] ++ [Newline])
      ++ each (mat_line (sci (flags s)) prec rowtext w) 0 Ls).
  Proof.
    intros FD DC FO NR NC CB. destruct (all_prints t R C FD FO NR NC DC CB) as [_ P]. destruct (choice_list _ R (P w)) as (Ls & LL & H). exists Ls. split; [auto|]. split; [intros r cells HC; apply (H r cells HC)|].
    unfold printmatrix. rewrite (C25_rowdim _ _ _ FD NR), (C25_coldim _ _ _ FD NC) by (pose proof int_max_W; lia).
    rewrite run_app, run_app. rewrite <- LL at 2. rewrite (run_mat_lines w rowtext t Ls 0); [|reflexivity|intros r cells HC; apply (H r cells HC)]. cbn. rewrite <- !app_assoc. reflexivity.
  Qed.
  (** Deviation (documented at printmatrix): an empty block column of a matrix of numbers gets no cell *)
  Theorem C66_empty_column_refuted a w : let t := CrsV TNum 2 [[(1, NumV a)]] in stored t 0 1 a /\ flat_dims (shape t) 1 2 /\ print_row w t 0 0 = flat_map (cell_ops w) [Some a].
  Proof. cbn zeta. destruct (C65_empty_column_refuted a) as (H1 & _ & _ & _ & _ & H2 & _). split; [exact H2|]. split; [exact H1|]. reflexivity. Qed.

  (** ** printSparseMatrix *)
  Section Sparse.
    Context {B : Type}.
    Variables (n m : nat).                       (* the size of a block *)
    Variable pel : B -> nat -> nat -> list op.   (* Impl::printInnerMatrixElement, io.hh:250-277 *)
    Variables (rowtext : string) (w : Z).        (* w: number of blocks in a line, an int *)
    (** the part of a line in front of its first block and one block, io.hh:341-364; i is the row *)
    Definition sp_block (i innerrow : nat) (first : bool) (e : nat * B) : list op :=
      (if innerrow =? 0
       then (if first then [str rowtext; str " "; Wid 4; Put (INat i); str ": "] else []) ++ [Wid 4; Put (INat (fst e)); str ": |"]
       else (if first then repeat (str " ") (String.length rowtext) ++ [str "       "] else []) ++ [str "      |"])
      ++ flat_map (fun innercol => Wid 9 :: pel (snd e) innerrow innercol) (seq 0 m) ++ [str "|"].
    (** the loop over the columns, io.hh:336-365; the second component: col==row->end() after the loop *)
    Fixpoint sp_cols (i innerrow : nat) (skip : Z) (row : list (nat * B)) (count : Z) : list op * bool :=
      match row with
      | nil => ([], true)
      | e :: es =>
          if (count <? skip)%Z then sp_cols i innerrow skip es (count + 1)
          else if (skip + w <=? count)%Z then ([], false)
          else let '(o, r) := sp_cols i innerrow skip es (count + 1) in (sp_block i innerrow (count =? skip)%Z e ++ o, r)
      end.
    (** the loop over the rows of the blocks, io.hh:333-369: operations and reachedEnd *)
    Fixpoint sp_inner (i : nat) (skip : Z) (row : list (nat * B)) (ks : list nat) (reached : bool) : list op * bool :=
      match ks with
      | nil => ([], reached)
      | innerrow :: t => let '(o, e) := sp_cols i innerrow skip row 0 in
          let last := (innerrow =? n - 1) && e in
          let '(o', r) := sp_inner i skip row t (if last then true else reached) in
          (o ++ (if last then [] else [Endl]) ++ o', r)
      end.
    (** while(!reachedEnd), io.hh:331-372; None: more than fuel passes *)
    Fixpoint sp_while (fuel i : nat) (skip : Z) (row : list (nat * B)) : option (list op) :=
      match fuel with
      | O => None
      | S fuel' => let '(o, r) := sp_inner i skip row (seq 0 n) false in
          if r then Some (o ++ [Endl]) else option_map (fun o' => o ++ [Endl] ++ o') (sp_while fuel' i (skip + w) row)
      end.
    (** the loop over the rows, io.hh:327-374 *)
    Fixpoint sp_rows (fuel i : nat) (rows : list (list (nat * B))) : option (list op) :=
      match rows with
      | nil => Some []
      | row :: rs => match sp_while fuel i 0 row with None => None | Some o => option_map (fun o' => o ++ [Endl] ++ o') (sp_rows fuel (S i) rs) end
      end.
    (** printSparseMatrix, io.hh:299-379 *)
    Definition printSparseMatrix (fuel : nat) (s : ostr) (M : nat) (rd cd : Z) (rows : list (list (nat * B))) (title : string) (prec : Z) : option ostr :=
      option_map (fun o => run s ([Sci; Prec prec; str title; str " [n="; Put (INat (length rows)); str ",m="; Put (INat M); str ",rowdim="; Put (IInt rd); str ",coldim="; Put (IInt cd); str "]"; Endl] ++ o ++ [Flags (flags s); Prec (precision s)])) (sp_rows fuel 0 rows).

    (** the operations of the printer for pieces of w blocks (for the proof; the specification is in section SparseSpec below) *)
    Definition sp_line (i innerrow : nat) (c : list (nat * B)) : list op := match c with nil => [] | e :: es => sp_block i innerrow true e ++ flat_map (sp_block i innerrow false) es end.
    Definition sp_piece (i : nat) (c : list (nat * B)) : list op := flat_map (fun innerrow => sp_line i innerrow c ++ [Endl]) (seq 0 n).
    Fixpoint sp_join (i : nat) (L : list (list (nat * B))) : list op := match L with nil => [] | [c] => sp_piece i c | c :: L' => sp_piece i c ++ [Endl] ++ sp_join i L' end.
    (** the pieces of a row; a row without blocks takes one piece without blocks *)
    Definition pieces (row : list (nat * B)) (L : list (list (nat * B))) : Prop := match row with nil => L = [[]] | _ => cut (Z.to_nat w) row L end.

    Lemma sp_cols_skip i ir skip row1 row2 : forall count, (count + Z.of_nat (length row1) <= skip)%Z -> sp_cols i ir skip (row1 ++ row2) count = sp_cols i ir skip row2 (count + Z.of_nat (length row1)).
    Proof.
      induction row1 as [|e es IH]; intros count H; cbn [app length]; [f_equal; lia|]. cbn [length] in H. cbn [sp_cols]. destruct (Z.ltb_spec count skip); [|lia]. rewrite IH by lia. f_equal. lia.
    Qed.
    Lemma sp_cols_rest i ir skip c row2 : forall count, (skip < count)%Z -> (count + Z.of_nat (length c) <= skip + w)%Z -> (row2 = nil \/ (count + Z.of_nat (length c) = skip + w)%Z) ->
      sp_cols i ir skip (c ++ row2) count = (flat_map (sp_block i ir false) c, match row2 with nil => true | _ => false end).
    Proof.
      induction c as [|e es IH]; intros count H1 H2 H3; cbn [app length flat_map] in *.
      - destruct row2 as [|x t]; [reflexivity|]. destruct H3 as [H3|H3]; [discriminate|]. cbn [sp_cols]. destruct (Z.ltb_spec count skip); [lia|]. destruct (Z.leb_spec (skip + w) count); [reflexivity|lia].
      - cbn [sp_cols]. destruct (Z.ltb_spec count skip); [lia|]. destruct (Z.leb_spec (skip + w) count); [lia|]. rewrite IH; [|lia|lia|destruct H3 as [H3|H3]; [left; exact H3|right; lia]]. destruct (Z.eqb_spec count skip); [lia|]. reflexivity.
    Qed.
    Lemma sp_cols_ok i ir row1 c row2 : 1 <= length c -> (Z.of_nat (length c) <= w)%Z -> (row2 = nil \/ (Z.of_nat (length c) = w)%Z) ->
      sp_cols i ir (Z.of_nat (length row1)) (row1 ++ c ++ row2) 0 = (sp_line i ir c, match row2 with nil => true | _ => false end).
    Proof.
      intros H1 H2 H3. rewrite sp_cols_skip by lia. rewrite Z.add_0_l. destruct c as [|e es]; [cbn in H1; lia|]. cbn [app sp_cols sp_line length] in *. destruct (Z.ltb_spec (Z.of_nat (length row1)) (Z.of_nat (length row1))); [lia|].
      destruct (Z.leb_spec (Z.of_nat (length row1) + w) (Z.of_nat (length row1))); [lia|]. rewrite sp_cols_rest; [|lia|lia|destruct H3; [auto|right; lia]]. now rewrite Z.eqb_refl.
    Qed.
    (** one pass over the n rows of the blocks *)
    Lemma sp_inner_ok i skip row (line : nat -> list op) e : 0 < n -> (forall ir, ir < n -> sp_cols i ir skip row 0 = (line ir, e)) ->
      exists o, sp_inner i skip row (seq 0 n) false = (o, e) /\ (o ++ (if e then [Endl] else [])) = flat_map (fun ir => line ir ++ [Endl]) (seq 0 n).
    Proof.
      intros HN H.
      assert (G : forall k s, s + k = n -> 0 < k -> exists o, sp_inner i skip row (seq s k) false = (o, e) /\ (o ++ (if e then [Endl] else [])) = flat_map (fun ir => line ir ++ [Endl]) (seq s k)).
      { induction k as [|k IH]; intros s E HK; [lia|]. cbn [seq sp_inner flat_map]. rewrite H by lia. destruct (Nat.eq_dec k 0) as [K0|K0].
        - subst k. cbn [seq sp_inner flat_map]. replace (s =? n - 1) with true by (symmetry; apply Nat.eqb_eq; lia). cbn [andb]. destruct e; eexists; (split; [reflexivity|]); cbn; rewrite ?app_nil_r; reflexivity.
        - destruct (Nat.eqb_spec s (n - 1)); [lia|]. cbn [andb]. destruct (IH (S s) ltac:(lia) ltac:(lia)) as (o & E1 & E2). rewrite E1. eexists. split; [reflexivity|]. rewrite <- E2. rewrite <- !app_assoc. reflexivity. }
      apply (G n 0); auto.
    Qed.
    Lemma sp_while_ok i L : forall row1 es fuel, es <> [] -> cut (Z.to_nat w) es L -> (0 < w)%Z -> 0 < n -> length L <= fuel ->
      sp_while fuel i (Z.of_nat (length row1)) (row1 ++ es) = Some (sp_join i L).
    Proof.
      induction L as [|c L IH]; intros row1 es fuel NE CU HW HN HF; [destruct CU as [E _]; cbn in E; congruence|]. destruct fuel as [|fuel]; [cbn in HF; lia|].
      destruct (cut_cons _ _ _ _ CU) as (es' & -> & CU' & HL & FULL). cbn [sp_while].
      assert (EMP : es' = [] <-> L = []).
      { destruct CU' as [E K]. split; intros ->; [|auto]. destruct L as [|c' L']; auto. destruct (K 0 c' eq_refl) as [[K1 _] _]. cbn in E. destruct c'; [cbn in K1; lia|discriminate]. }
      destruct (sp_inner_ok i (Z.of_nat (length row1)) (row1 ++ c ++ es') (fun ir => sp_line i ir c) (match es' with nil => true | _ => false end) HN) as (o & E1 & E2).
      { intros ir _. apply sp_cols_ok; [lia|lia|]. destruct es' as [|x t]; [auto|right]. rewrite FULL; [lia|]. intros ->. destruct EMP as [_ EM]. discriminate (EM eq_refl). }
      rewrite E1. destruct es' as [|x t] eqn:EES.
      - destruct EMP as [EM _]. rewrite (EM eq_refl). rewrite E2. reflexivity.
      - assert (LN : L <> []) by (intros ->; destruct EMP as [_ EM]; discriminate (EM eq_refl)). rewrite FULL in * by auto.
        replace (Z.of_nat (length row1) + w)%Z with (Z.of_nat (length (row1 ++ c))) by (rewrite app_length, FULL by auto; lia). rewrite app_assoc, IH; auto; [|discriminate|cbn in HF; lia].
        cbn [option_map]. f_equal. rewrite app_nil_r in E2. rewrite E2. destruct L; [congruence|reflexivity].
    Qed.
    Lemma sp_row_ok i row : (0 < w)%Z -> 0 < n -> exists L, pieces row L /\ forall fuel, length row < fuel -> sp_while fuel i 0 row = Some (sp_join i L).
    Proof.
      intros HW HN. destruct row as [|e es] eqn:ER.
      - exists [[]]. split; [reflexivity|]. intros [|fuel] HF; [lia|]. cbn [sp_while]. destruct (sp_inner_ok i 0 (@nil (nat * B)) (fun _ => []) true HN) as (o & E1 & E2); [intros; reflexivity|]. rewrite E1, E2. reflexivity.
      - rewrite <- ER. destruct (cut_exists (Z.to_nat w) row) as (L & CU); [lia|]. exists L. split; [subst row; exact CU|]. intros fuel HF. apply (sp_while_ok i L [] row fuel); auto; [subst; discriminate|].
        assert (LE : length L <= length row); [|lia]. destruct CU as [E K]. rewrite <- E. clear - K. induction L as [|c L IH]; cbn [length concat]; [lia|]. rewrite app_length. destruct (K 0 c eq_refl) as [[K1 _] _]. assert (length L <= length (concat L)); [|lia]. apply IH. intros i c' HC. destruct (K (S i) c' HC) as [X1 X2]. split; auto. intros HL. apply X2. cbn. lia.
    Qed.
    (** the operations of the printer *)
    Lemma sparse_run rows : (0 < w)%Z -> 0 < n -> exists Ls, Forall2 pieces rows Ls /\
      forall fuel s M rd cd title prec, (forall row, In row rows -> length row < fuel) ->
        printSparseMatrix fuel s M rd cd rows title prec = Some (run s ([Sci; Prec prec; str title; str " [n="; Put (INat (length rows)); str ",m="; Put (INat M); str ",rowdim="; Put (IInt rd); str ",coldim="; Put (IInt cd); str "]"; Endl]
          ++ flat_map (fun p => sp_join (fst p) (snd p) ++ [Endl]) (combine (seq 0 (length rows)) Ls) ++ [Flags (flags s); Prec (precision s)])).
    Proof.
      intros HW HN.
      assert (G : forall rows i, exists Ls, Forall2 pieces rows Ls /\ forall fuel, (forall row, In row rows -> length row < fuel) -> sp_rows fuel i rows = Some (flat_map (fun p => sp_join (fst p) (snd p) ++ [Endl]) (combine (seq i (length rows)) Ls))).
      { clear rows. induction rows as [|row rs IH]; intros i; [exists []; split; [constructor|reflexivity]|]. destruct (IH (S i)) as (Ls & F & H). destruct (sp_row_ok i row HW HN) as (L & P & HL). exists (L :: Ls). split; [constructor; auto|].
        intros fuel HF. cbn [sp_rows]. rewrite HL by (apply HF; left; auto). rewrite H by (intros; apply HF; right; auto). cbn [option_map length seq combine flat_map fst snd]. now rewrite <- app_assoc. }
      destruct (G rows 0) as (Ls & F & H). exists Ls. split; [auto|]. intros fuel s M rd cd title prec HF. unfold printSparseMatrix. rewrite H by auto. reflexivity.
    Qed.
    (** Deviation: with width <= 0 a matrix with a block sends the printer into an infinite loop *)
    Theorem C66_sparse_width_refuted fuel s M rd cd rows title prec : (w <= 0)%Z -> (exists row, In row rows /\ row <> []) -> printSparseMatrix fuel s M rd cd rows title prec = None.
    Proof.
      intros HW (row & HI & NE). unfold printSparseMatrix. assert (E : forall i, sp_rows fuel i rows = None); [|now rewrite E].
      assert (SC : forall ir skip i, row <> [] -> (skip <= 0)%Z -> snd (sp_cols i ir skip row 0) = false).
      { intros ir skip i N SK. destruct row as [|e es]; [congruence|]. cbn [sp_cols]. destruct (Z.ltb_spec 0 skip); [lia|]. destruct (Z.leb_spec (skip + w) 0); [reflexivity|lia]. }
      assert (SI : forall i skip ks, (skip <= 0)%Z -> snd (sp_inner i skip row ks false) = false).
      { intros i skip ks SK. induction ks as [|ir t IH]; [reflexivity|]. cbn [sp_inner]. specialize (SC ir skip i NE SK). destruct (sp_cols i ir skip row 0) as [o e]. cbn in SC. subst e. rewrite andb_false_r. destruct (sp_inner i skip row t false) as [o' r]. exact IH. }
      assert (SW : forall f i skip, (skip <= 0)%Z -> sp_while f i skip row = None).
      { induction f as [|f IH]; intros i skip SK; [reflexivity|]. cbn [sp_while]. specialize (SI i skip (seq 0 n) SK). destruct (sp_inner i skip row (seq 0 n) false) as [o r]. cbn in SI. subst r. rewrite IH by lia. reflexivity. }
      clear SC SI. induction rows as [|x rs IH]; intros i; [destruct HI|]. cbn [sp_rows]. destruct HI as [HI|HI]; [subst x; now rewrite SW by lia|]. destruct (sp_while fuel i 0 x); [|reflexivity]. now rewrite IH.
    Qed.
  End Sparse.

  (** the three overloads of Impl::printInnerMatrixElement, io.hh:250-277: numbers, ScaledIdentityMatrix, FieldMatrix *)
  Inductive blk := BNum (a : A) | BId (a : A) | BField (f : nat -> nat -> A).
  Definition printInner (b : blk) (innerrow innercol : nat) : list op :=
    match b with
    | BNum a => [Put (IVal a); str " "]
    | BId a => if innerrow =? innercol then [Put (IVal a); str " "] else [str "-"]
    | BField f => [Put (IVal (f innerrow innercol)); str " "]
    end.
  Section SparseSpec.
    Variables (n m : nat) (rowtext : string) (w : Z) (fl : Fl) (prec : Z).
    (** Specification.  The entry (r, c) of a block; None: not stored *)
    Definition entry_of (b : blk) (r c : nat) : option A :=
      match b with BNum a => Some a | BId a => if r =? c then Some a else None | BField f => Some (f r c) end.
    (** a cell: the number, 9 wide, and a space, or a minus sign, 9 wide *)
    Definition t_cell (o : option A) : list tok := match o with Some a => [tval fl prec 9 a; tstr fl prec " "] | None => [Tok (IStr "-") 9 fl prec] end.
    (** what stands in front of row r of a block in column j of row i: in the first row the column index, in front of the first block of a line also the row index *)
    Definition t_head (i j : nat) (r : nat) (first : bool) : list tok :=
      match r, first with
      | O, true => [tstr fl prec rowtext; tstr fl prec " "; Tok (INat i) 4 fl prec; tstr fl prec ": "; Tok (INat j) 4 fl prec; tstr fl prec ": |"]
      | O, false => [Tok (INat j) 4 fl prec; tstr fl prec ": |"]
      | S _, true => repeat (tstr fl prec " ") (String.length rowtext) ++ [tstr fl prec "       "; tstr fl prec "      |"]
      | S _, false => [tstr fl prec "      |"]
      end.
    Definition t_block (i r : nat) (first : bool) (e : nat * blk) : list tok := t_head i (fst e) r first ++ flat_map (fun c => t_cell (entry_of (snd e) r c)) (seq 0 m) ++ [tstr fl prec "|"].
    (** row r of a piece; a piece; the pieces of a row, separated by empty lines; the row *)
    Definition t_line (i r : nat) (c : list (nat * blk)) : list tok := match c with nil => [] | e :: es => t_block i r true e ++ flat_map (t_block i r false) es end ++ [Newline].
    Definition t_piece (i : nat) (c : list (nat * blk)) : list tok := flat_map (fun r => t_line i r c) (seq 0 n).
    Fixpoint t_join (i : nat) (L : list (list (nat * blk))) : list tok := match L with nil => [] | [c] => t_piece i c | c :: L' => t_piece i c ++ [Newline] ++ t_join i L' end.
    Definition t_row (i : nat) (L : list (list (nat * blk))) : list tok := t_join i L ++ [Newline].

    Definition emits (o : list op) (t : list tok) : Prop := forall acc, run (mkO fl prec 0 acc) o = mkO fl prec 0 (acc ++ t).
    Lemma emits_nil : emits [] [].
    Proof. intros acc. cbn. now rewrite app_nil_r. Qed.
    Lemma emits_app o1 t1 o2 t2 : emits o1 t1 -> emits o2 t2 -> emits (o1 ++ o2) (t1 ++ t2).
    Proof. intros H1 H2 acc. rewrite run_app, H1, H2, app_assoc. reflexivity. Qed.
    Lemma emits_flat {X} (f : X -> list op) (g : X -> list tok) l : (forall x, emits (f x) (g x)) -> emits (flat_map f l) (flat_map g l).
    Proof. intros H. induction l as [|x t IH]; cbn [flat_map]; [apply emits_nil|]. apply emits_app; auto. Qed.
    Lemma emits_rep o t k : emits [o] [t] -> emits (repeat o k) (repeat t k).
    Proof. intros H. induction k as [|k IH]; cbn [repeat]; [apply emits_nil|]. exact (emits_app [o] [t] _ _ H IH). Qed.
    Lemma emits_str x : emits [str x] [tstr fl prec x].
    Proof. intros acc. reflexivity. Qed.
    Lemma emits_endl : emits [Endl] [Newline].
    Proof. intros acc. reflexivity. Qed.
    Lemma emits_cell b r c : emits (Wid 9 :: printInner b r c) (t_cell (entry_of b r c)).
    Proof. intros acc. destruct b as [a|a|f]; cbn [printInner entry_of]; [|destruct (r =? c)|]; cbn; rewrite <- ?app_assoc; reflexivity. Qed.
    Lemma emits_block i r first e : emits (sp_block m printInner rowtext i r first e) (t_block i r first e).
    Proof.
      unfold sp_block, t_block. apply emits_app; [|apply emits_app; [apply emits_flat; intros c; apply emits_cell|apply emits_str]].
      destruct r as [|r]; cbn [t_head].
      - change (0 =? 0) with true. cbv iota. destruct first; intros acc; cbn; rewrite <- ?app_assoc; reflexivity.
      - change (S r =? 0) with false. cbv iota. destruct first; [|apply emits_str]. change ([tstr fl prec "       "; tstr fl prec "      |"]) with ([tstr fl prec "       "] ++ [tstr fl prec "      |"]). rewrite app_assoc.
        apply emits_app; [apply emits_app; [apply emits_rep|]|]; apply emits_str.
    Qed.
    Lemma emits_line i r c : emits (sp_line m printInner rowtext i r c ++ [Endl]) (t_line i r c).
    Proof. unfold t_line. apply emits_app; [|apply emits_endl]. destruct c as [|e es]; cbn [sp_line]; [apply emits_nil|]. apply emits_app; [apply emits_block|apply emits_flat; intros x; apply emits_block]. Qed.
    Lemma emits_join i L : emits (sp_join n m printInner rowtext i L) (t_join i L).
    Proof.
      induction L as [|c L IH]; cbn [sp_join t_join]; [apply emits_nil|]. assert (P : emits (sp_piece n m printInner rowtext i c) (t_piece i c)) by (apply emits_flat; intros r; apply emits_line).
      destruct L; [exact P|]. apply emits_app; [exact P|]. apply emits_app; [apply emits_endl|exact IH].
    Qed.
  End SparseSpec.
  Lemma run_put f p w t i l : run (mkO f p w t) (Put i :: l) = run (mkO f p 0 (t ++ [Tok i w f p])) l.
  Proof. reflexivity. Qed.
  Lemma run_endl f p w t l : run (mkO f p w t) (Endl :: l) = run (mkO f p w (t ++ [Newline])) l.
  Proof. reflexivity. Qed.
  Lemma run_sci f p w t l : run (mkO f p w t) (Sci :: l) = run (mkO (sci f) p w t) l.
  Proof. reflexivity. Qed.
  Lemma run_prec f p w t q l : run (mkO f p w t) (Prec q :: l) = run (mkO f q w t) l.
  Proof. reflexivity. Qed.
  Lemma run_nil s : run s [] = s.
  Proof. reflexivity. Qed.
  Lemma head_run s k M rd cd title prec : run s [Sci; Prec prec; str title; str " [n="; Put (INat k); str ",m="; Put (INat M); str ",rowdim="; Put (IInt rd); str ",coldim="; Put (IInt cd); str "]"; Endl] =
    mkO (sci (flags s)) prec 0 (out s ++ (Tok (IStr title) (width s) (sci (flags s)) prec :: map (fun i => Tok i 0%Z (sci (flags s)) prec) [IStr " [n="; INat k; IStr ",m="; INat M; IStr ",rowdim="; IInt rd; IStr ",coldim="; IInt cd; IStr "]"] ++ [Newline])).
  Proof. destruct s as [f p w t]. unfold str. rewrite run_sci, run_prec, !run_put, run_endl, run_nil. cbn [flags precision width out map app]. rewrite <- !app_assoc. reflexivity. Qed.
  Lemma foot_run f f' p p' t : run (mkO f p 0 t) [Flags f'; Prec p'] = mkO f' p' 0 t.
  Proof. reflexivity. Qed.
  (** C66 (sparse matrices): for at least one block per line the printer terminates and prints, row by row, the blocks in pieces of w blocks, with the row index, the column indices and all their entries *)
  Theorem C66_sparse n m rowtext w rows : (0 < w)%Z -> 0 < n -> exists Ls, Forall2 (pieces w) rows Ls /\
    forall fuel s M rd cd title prec, (forall row, In row rows -> length row < fuel) ->
      printSparseMatrix n m printInner rowtext w fuel s M rd cd rows title prec = Some (mkO (flags s) (precision s) 0 (out s ++
        (Tok (IStr title) (width s) (sci (flags s)) prec :: map (fun i => Tok i 0%Z (sci (flags s)) prec) [IStr " [n="; INat (length rows); IStr ",m="; INat M; IStr ",rowdim="; IInt rd; IStr ",coldim="; IInt cd; IStr "]"] ++ [Newline])
        ++ each (t_row n m rowtext (sci (flags s)) prec) 0 Ls)).
  Proof.
    intros HW HN. destruct (sparse_run n m printInner rowtext w rows HW HN) as (Ls & F & H). exists Ls. split; [exact F|]. intros fuel s M rd cd title prec HF. rewrite H by exact HF. f_equal.
    assert (LL : length rows = length Ls) by (clear - F; induction F; cbn; auto). set (hd := [Sci; Prec prec; str title; str " [n="; Put (INat (length rows)); str ",m="; Put (INat M); str ",rowdim="; Put (IInt rd); str ",coldim="; Put (IInt cd); str "]"; Endl]).
    rewrite run_app. rewrite run_app. set (f' := sci (flags s)).
    assert (E : forall L k, emits f' prec (flat_map (fun p => sp_join n m printInner rowtext (fst p) (snd p) ++ [Endl]) (combine (seq k (length L)) L)) (each (t_row n m rowtext f' prec) k L)).
    { induction L as [|c L IH]; intros k; cbn [length seq combine flat_map each]; [apply emits_nil|]. apply emits_app; [|apply IH]. unfold t_row. cbn [fst snd]. apply emits_app; [apply emits_join|apply emits_endl]. }
    rewrite LL. unfold hd. rewrite head_run. fold f'. rewrite E. rewrite foot_run. rewrite LL, <- app_assoc. reflexivity.
  Qed.
End Print.
(** Examples: three numbers in two columns; a 2x2 matrix with a missing entry; a row of three blocks, two per line *)
Definition exs : @ostr nat nat := mkO 7 6 0 [].
Example C66_vector_nonvacuous : match printvector S exs (VNode [VNode [VScalar 10; VScalar 11]; VScalar 12]) "v" "r" 2 5 3 with
  | Ok s => skipn 7 (out s) = [Tok (IStr "r") 0 8 3; Tok (IStr " ") 0 8 3; Tok (IInt 0) 4 8 3; Tok (IStr " ") 0 8 3; Tok (IVal 10) 5 8 3; Tok (IStr " ") 0 8 3; Tok (IVal 11) 5 8 3; Newline;
      Tok (IStr "r") 0 8 3; Tok (IStr " ") 0 8 3; Tok (IInt 2) 4 8 3; Tok (IStr " ") 0 8 3; Tok (IVal 12) 5 8 3; Newline] /\ flags s = 7 /\ precision s = 6%Z
  | _ => False end.
Proof. repeat split. Qed.
Example C66_matrix_nonvacuous : skipn 11 (out (printmatrix S exs ex_matlab "m" "r" 5 3)) = mat_line 8 3 "r" 5 0 [Some 1; Some 2; Some 5] ++ mat_line 8 3 "r" 5 1 [Some 3; None; Some 6].
Proof. reflexivity. Qed.
Example C66_sparse_nonvacuous : match printSparseMatrix S 2 2 printInner "r" 2 9 exs 5 2 10 [[(0, BField (fun r c => 10 * r + c)); (1, BId 8); (4, BId 9)]] "t" 3 with
  | Some s => skipn 11 (out s) = each (t_row 2 2 "r" (S 7) 3) 0 [[[(0, BField (fun r c => 10 * r + c)); (1, BId 8)]; [(4, BId 9)]]] | None => False end.
Proof. reflexivity. Qed.
Print Assumptions C66_vector.
Print Assumptions C66_matrix.
Print Assumptions C66_sparse.
Print Assumptions C66_sparse_width_refuted.
