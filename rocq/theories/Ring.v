(** * Noncommutative rings and finite sums (specification vocabulary)

    Block entries of dune-istl matrices ([FieldMatrix<K,n,n>], scalars, ...) are modelled as
    elements of an arbitrary unital, not necessarily commutative ring with Leibniz equality.
    Floating point rounding is not modelled. *)
Require Import Ncring Ncring_tac.
From Coq Require Import Setoid Morphisms.

Record ring := mkRing {
  car :> Type;
  r0 : car;
  r1 : car;
  radd : car -> car -> car;
  rmul : car -> car -> car;
  ropp : car -> car;
  radd_comm : forall a b, radd a b = radd b a;
  radd_assoc : forall a b c, radd a (radd b c) = radd (radd a b) c;
  radd_0_l : forall a, radd r0 a = a;
  radd_opp_r : forall a, radd a (ropp a) = r0;
  rmul_assoc : forall a b c, rmul a (rmul b c) = rmul (rmul a b) c;
  rmul_1_l : forall a, rmul r1 a = a;
  rmul_1_r : forall a, rmul a r1 = a;
  rdistr_l : forall a b c, rmul (radd a b) c = radd (rmul a c) (rmul b c);
  rdistr_r : forall a b c, rmul a (radd b c) = radd (rmul a b) (rmul a c)
}.
Arguments r0 {_}.
Arguments r1 {_}.
Arguments radd {_}.
Arguments rmul {_}.
Arguments ropp {_}.

Definition rsub {R : ring} (a b : R) : R := radd a (ropp b).

Section NcInst.
  Variable R : ring.
  Global Instance ring_rops : @Ring_ops R r0 r1 radd rmul rsub ropp eq := {}.
  Global Instance ring_rring : @Ring R r0 r1 radd rmul rsub ropp eq ring_rops.
  Proof.
    constructor.
    - exact (@eq_equivalence R).
    - repeat intro; congruence.
    - repeat intro; congruence.
    - repeat intro; congruence.
    - repeat intro; congruence.
    - exact (radd_0_l R).
    - exact (radd_comm R).
    - exact (radd_assoc R).
    - exact (rmul_1_l R).
    - exact (rmul_1_r R).
    - exact (rmul_assoc R).
    - exact (rdistr_l R).
    - intros; exact (rdistr_r R z x y).
    - reflexivity.
    - exact (radd_opp_r R).
  Qed.
End NcInst.

(** Decide equalities that hold in every noncommutative ring. *)
Ltac ncring :=
  intros;
  match goal with
  | |- @eq (car ?R) ?a ?b =>
    change (@equality (car R) (@eq_notation _ _ _ _ _ _ _ _ (ring_rops R)) a b);
    ring_gen
  end.

Declare Scope ring_scope_istl.
Delimit Scope ring_scope_istl with R.
Notation "a + b" := (radd a b) : ring_scope_istl.
Notation "a - b" := (rsub a b) : ring_scope_istl.
Notation "a * b" := (rmul a b) : ring_scope_istl.
Notation "- a" := (ropp a) : ring_scope_istl.
