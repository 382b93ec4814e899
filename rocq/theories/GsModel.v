(** * Triangular solves and stationary iteration steps (dune/istl/gsetc.hh)

    The template recursion over block levels is modelled by making every routine a function of the operations of
    the block type: [mmv a x r] is [r - a x], [inner] is the same routine one level below (A.solve(v,d) on level 0).
    Vectors are lists, rows are what row iteration shows.  A row cursor that runs off the end of its row is [UB];
    a singular dense block makes A.solve throw FMatrixError. *)
From Coq Require Import List Arith Lia.
From Verif Require Import Ring Sums Outcome Sparse MatVec.
Import ListNotations.

Section Loops.
  Context {B X E : Type}.   (* blocks, vector blocks, extra loop state *)
  (** for (i=A.begin(); i!=A.end(); ++i) assign x[i] *)
  Fixpoint fwd (f : nat -> list (nat * B) -> list X -> E -> outcome (X * E)) (i : nat) (rows : list (list (nat * B))) (x : list X) (e : E) : outcome (list X * E) :=
    match rows with
    | nil => Ok (x, e)
    | row :: t => obind (f i row x e) (fun r => fwd f (S i) t (upd x i (fst r)) (snd r))
    end.
  (** for (i=A.beforeEnd(); i!=A.beforeBegin(); --i) assign x[i] *)
  Fixpoint bwd (f : nat -> list (nat * B) -> list X -> E -> outcome (X * E)) (i : nat) (rows : list (list (nat * B))) (x : list X) (e : E) : outcome (list X * E) :=
    match rows with
    | nil => Ok (x, e)
    | row :: t => obind (bwd f (S i) t x e) (fun r => obind (f i row (fst r) (snd r)) (fun u => Ok (upd (fst r) i (fst u), snd u)))
    end.
End Loops.

Section Sweeps.
  Context {B X : Type}.
  Variable dx : X.                       (* default of nth, never read for indices in range *)
  Variable mmv : B -> X -> X -> X.       (* a.mmv(x,r): r -= a x *)

  (** for (j=row.begin(); j.index()<i; ++j) ( *j).mmv(v[j.index()],rhs): what remains of the row, and rhs *)
  Fixpoint lower_loop (i : nat) (row : list (nat * B)) (v : list X) (rhs : X) : X * list (nat * B) :=
    match row with
    | (j, a) :: t => if j <? i then lower_loop i t v (mmv a (nth j v dx) rhs) else (rhs, row)
    | nil => (rhs, nil)
    end.
  (** the same with a cursor running backwards; [rrow] is the row in reverse order *)
  Fixpoint upper_loop (i : nat) (rrow : list (nat * B)) (v : list X) (rhs : X) : X * list (nat * B) :=
    match rrow with
    | (j, a) :: t => if i <? j then upper_loop i t v (mmv a (nth j v dx) rhs) else (rhs, rrow)
    | nil => (rhs, nil)
    end.
  (** for (; j!=endj; ++j) ( *j).mmv(x[j.index()],rhs) *)
  Definition rest_loop (row : list (nat * B)) (x : list X) (rhs : X) : X :=
    fold_left (fun r e => mmv (snd e) (nth (fst e) x dx) r) row rhs.

  Variable inner : B -> X -> X -> outcome X.  (* block, start value, right-hand side *)

  (** algmeta_btsolve<I>::bltsolve, gsetc.hh:70-88 *)
  Definition bltsolve_gen (A : list (list (nat * B))) (v d : list X) : outcome (list X) :=
    obind (fwd (fun i row v (_ : unit) =>
      let (rhs, rest) := lower_loop i row v (nth i d dx) in
      match rest with
      | (_, a) :: _ => obind (inner a (nth i v dx) rhs) (fun u => Ok (u, tt))
      | nil => UB
      end) 0 A v tt) (fun r => Ok (fst r)).
  (** algmeta_btsolve<I>::butsolve, gsetc.hh:89-107.  Running a reverse column cursor before the first entry of the row is UB. *)
  Definition butsolve_gen (A : list (list (nat * B))) (v d : list X) : outcome (list X) :=
    obind (bwd (fun i row v (_ : unit) =>
      let (rhs, rest) := upper_loop i (rev row) v (nth i d dx) in
      match rest with
      | (_, a) :: _ => obind (inner a (nth i v dx) rhs) (fun u => Ok (u, tt))
      | nil => UB
      end) 0 A v tt) (fun r => Ok (fst r)).
  (** row.find(i), which gives end() if there is no such entry; dereferencing that is UB *)
  Fixpoint row_find (row : list (nat * B)) (i : nat) : option B :=
    match row with
    | (j, a) :: t => if j =? i then Some a else row_find t i
    | nil => None
    end.
  (** algmeta_bdsolve<I>::bdsolve, gsetc.hh:291-307 *)
  Definition bdsolve_gen (A : list (list (nat * B))) (v d : list X) : outcome (list X) :=
    obind (bwd (fun i row v (_ : unit) =>
      match row_find row i with
      | Some a => obind (inner a (nth i v dx) (nth i d dx)) (fun u => Ok (u, tt))
      | None => UB
      end) 0 A v tt) (fun r => Ok (fst r)).

  Variable axpy : X -> X -> X.      (* x.axpy(w,v): x + w v *)
  Variable relax : X -> X -> X.     (* x *= w; x.axpy(1-w,xold) *)

  (** algmeta_itsteps<I>::dbgs, gsetc.hh:373-414: the diagonal entry is the one the first loop stopped at *)
  Definition dbgs_gen (A : list (list (nat * B))) (x b : list X) : outcome (list X) :=
    obind (fwd (fun i row x (_ : unit) =>
      let (rhs, rest) := lower_loop i row x (nth i b dx) in
      match rest with
      | (_, a) :: t => obind (inner a (nth i x dx) (rest_loop t x rhs)) (fun u => Ok (u, tt))
      | nil => UB
      end) 0 A x tt) (fun r => Ok (map (fun p => relax (fst p) (snd p)) (combine (fst r) x))).
  (** algmeta_itsteps<I>::bsorf, gsetc.hh:416-459; the extra state is the variable v, which keeps its value from
      row to row and starts as x[0] *)
  Definition bsor_body (b : list X) (i : nat) (row : list (nat * B)) (x : list X) (v : X) : outcome (X * X) :=
    let (rhs, rest) := lower_loop i row x (nth i b dx) in
    match rest with
    | (_, a) :: _ => obind (inner a v (rest_loop rest x rhs)) (fun v' => Ok (axpy (nth i x dx) v', v'))
    | nil => UB
    end.
  Definition bsorf_gen (A : list (list (nat * B))) (x b : list X) : outcome (list X) :=
    obind (fwd (bsor_body b) 0 A x (nth 0 x dx)) (fun r => Ok (fst r)).
  (** bsorb, gsetc.hh:461-503 *)
  Definition bsorb_gen (A : list (list (nat * B))) (x b : list X) : outcome (list X) :=
    obind (bwd (bsor_body b) 0 A x (nth 0 x dx)) (fun r => Ok (fst r)).
  (** dbjac, gsetc.hh:505-541: corrections are collected in v, a copy of x *)
  Definition dbjac_gen (A : list (list (nat * B))) (x b : list X) : outcome (list X) :=
    obind (fwd (fun i row v (_ : unit) =>
      let (rhs, rest) := lower_loop i row x (nth i b dx) in
      match rest with
      | (_, a) :: _ => obind (inner a (nth i v dx) (rest_loop rest x rhs)) (fun u => Ok (u, tt))
      | nil => UB
      end) 0 A x tt) (fun r => Ok (map (fun p => axpy (fst p) (snd p)) (combine x (fst r)))).
End Sweeps.

(** ** Level 1 and level 2 instances *)
Section Levels.
  Context {R : ring}.
  Local Open Scope ring_scope_istl.
  Variable inv : R -> option R.

  (** A.solve(v,d) for a dense block (or rhs/diag for a number) *)
  Definition blk_solve (a r : R) : outcome R :=
    match inv a with Some u => Ok (u * r) | None => Throw EFMatrix end.
  Definition blk_mmv (a x r : R) : R := r - a * x.

  Notation vec0 := (@r0 R).
  (** default block recursion level 1, gsetc.hh:111-165 (innermost level), 174-225 *)
  Definition bltsolve (A : smat R) (v d : vec R) : outcome (vec R) := bltsolve_gen vec0 blk_mmv (fun a _ r => blk_solve a r) A v d.
  Definition bltsolve_w (A : smat R) (v d : vec R) (w : R) : outcome (vec R) :=
    bltsolve_gen vec0 blk_mmv (fun a _ r => obind (blk_solve a r) (fun u => Ok (u * w))) A v d.
  Definition ubltsolve (A : smat R) (v d : vec R) : outcome (vec R) := bltsolve_gen vec0 blk_mmv (fun _ _ r => Ok r) A v d.
  Definition ubltsolve_w (A : smat R) (v d : vec R) (w : R) : outcome (vec R) := bltsolve_gen vec0 blk_mmv (fun _ _ r => Ok (r * w)) A v d.
  Definition butsolve (A : smat R) (v d : vec R) : outcome (vec R) := butsolve_gen vec0 blk_mmv (fun a _ r => blk_solve a r) A v d.
  Definition butsolve_w (A : smat R) (v d : vec R) (w : R) : outcome (vec R) :=
    butsolve_gen vec0 blk_mmv (fun a _ r => obind (blk_solve a r) (fun u => Ok (u * w))) A v d.
  Definition ubutsolve (A : smat R) (v d : vec R) : outcome (vec R) := butsolve_gen vec0 blk_mmv (fun _ _ r => Ok r) A v d.
  Definition ubutsolve_w (A : smat R) (v d : vec R) (w : R) : outcome (vec R) := butsolve_gen vec0 blk_mmv (fun _ _ r => Ok (r * w)) A v d.
  (** bdsolve, gsetc.hh:313-347 *)
  Definition bdsolve (A : smat R) (v d : vec R) : outcome (vec R) := bdsolve_gen vec0 (fun a _ r => blk_solve a r) A v d.
  Definition bdsolve_w (A : smat R) (v d : vec R) (w : R) : outcome (vec R) :=
    bdsolve_gen vec0 (fun a _ r => obind (blk_solve a r) (fun u => Ok (u * w))) A v d.

  (** the iteration steps for block level 1, gsetc.hh:542-564 (innermost level), 620-661 *)
  Definition dbgs (A : smat R) (x b : vec R) (w : R) : outcome (vec R) :=
    dbgs_gen vec0 blk_mmv (fun a _ r => blk_solve a r) (fun x xold => x * w + (r1 - w) * xold) A x b.
  Definition bsorf (A : smat R) (x b : vec R) (w : R) : outcome (vec R) :=
    bsorf_gen vec0 blk_mmv (fun a _ r => blk_solve a r) (fun x v => x + w * v) A x b.
  Definition bsorb (A : smat R) (x b : vec R) (w : R) : outcome (vec R) :=
    bsorb_gen vec0 blk_mmv (fun a _ r => blk_solve a r) (fun x v => x + w * v) A x b.
  Definition dbjac (A : smat R) (x b : vec R) (w : R) : outcome (vec R) :=
    dbjac_gen vec0 blk_mmv (fun a _ r => blk_solve a r) (fun x v => x + w * v) A x b.

  (** block recursion level 2: blocks are sparse matrices, vector blocks are vectors *)
  Definition v_axpy (w : R) (x v : vec R) : vec R := map (fun p => fst p + w * snd p) (combine x v).
  Definition bsorf2 (A : list (list (nat * smat R))) (x b : list (vec R)) (w : R) : outcome (list (vec R)) :=
    bsorf_gen nil bcrs_mmv (fun a v r => bsorf a v r w) (v_axpy w) A x b.
  Definition dbjac2 (A : list (list (nat * smat R))) (x b : list (vec R)) (w : R) : outcome (list (vec R)) :=
    dbjac_gen nil bcrs_mmv (fun a v r => dbjac a v r w) (v_axpy w) A x b.
  Definition bltsolve2 (A : list (list (nat * smat R))) (v d : list (vec R)) : outcome (list (vec R)) :=
    bltsolve_gen nil bcrs_mmv (fun a v r => bltsolve a v r) A v d.
  Definition butsolve2 (A : list (list (nat * smat R))) (v d : list (vec R)) : outcome (list (vec R)) :=
    butsolve_gen nil bcrs_mmv (fun a v r => butsolve a v r) A v d.
End Levels.
