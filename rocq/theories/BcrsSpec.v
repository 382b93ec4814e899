(** * Observations used to state the BCRSMatrix properties

    These definitions contain no algorithm of the code: they only say what a user can see. *)
From Coq Require Import List Arith Bool Sorted.
From Verif Require Import Outcome BcrsModel.
Import ListNotations.

Section Spec.
  Context {V : Type}.

  (** [shows s n m P val]: iterating over the finished matrix is defined, delivers [n] rows; row [i]
      delivers exactly the columns [j] with [P i j], strictly increasing (hence each once), and at
      [(i,j)] the value [val i j]. *)
  Definition shows (s : @st V) (n m : nat) (P : nat -> nat -> Prop) (val : nat -> nat -> V) : Prop :=
    mstage (snd s) = Built /\ mn (snd s) = n /\ mm (snd s) = m /\
    exists rows, view s = Some rows /\ length rows = n /\
      forall i row, nth_error rows i = Some row ->
        StronglySorted lt (map fst row) /\
        (forall j, In j (map fst row) <-> P i j) /\
        (forall j v, In (j, v) row -> v = val i j).

  (** number of elements of a finite set of columns, as a relation *)
  Definition at_most (k : nat) {A} (P : A -> Prop) : Prop :=
    forall l, NoDup l -> (forall j, In j l -> P j) -> length l <= k.
  Definition exactly (k : nat) {A} (P : A -> Prop) : Prop :=
    exists l, NoDup l /\ (forall x, In x l <-> P x) /\ length l = k.
End Spec.
