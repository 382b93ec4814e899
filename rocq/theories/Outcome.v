(** * Outcomes of C++ calls *)
From Coq Require Import List Arith.
Import ListNotations.

(** Exceptions thrown by dune-istl (dune/istl/istlexception.hh:19-59 and dune-common). *)
Inductive exn :=
| EBCRS          (* BCRSMatrixError *)
| EExhausted     (* ImplicitModeCompressionBufferExhausted *)
| EISTL          (* ISTLError *)
| EInvalidState  (* InvalidStateException *)
| ERange         (* RangeError *)
| EBlock (row : nat)  (* MatrixBlockError, carrying the row *)
| EFMatrix       (* FMatrixError: singular dense block *)
| EAbort         (* SolverAbort *)
| ECategory      (* InvalidSolverCategory *)
| EMarket        (* MatrixMarketFormatError *)
| ENotFound      (* unknown factory key *)
| EIO            (* IOError *)
| EAlloc         (* std::bad_alloc *)
| EMath.         (* MathError *)

(** Pure computations: normal result, exception, or undefined behaviour
    (null dereference, out of bounds access, broken precondition of a std algorithm). *)
Inductive outcome (A : Type) :=
| Ok (a : A)
| Throw (e : exn)
| UB.
Arguments Ok {A}. Arguments Throw {A}. Arguments UB {A}.

Definition obind {A B} (x : outcome A) (f : A -> outcome B) : outcome B :=
  match x with Ok a => f a | Throw e => Throw e | UB => UB end.

(** Stateful calls: the state left behind is visible also when an exception is thrown. *)
Inductive res (S A : Type) :=
| ROk (s : S) (a : A)
| RThrow (s : S) (e : exn)
| RUB.
Arguments ROk {S A}. Arguments RThrow {S A}. Arguments RUB {S A}.

Definition rbind {S A B} (x : res S A) (f : S -> A -> res S B) : res S B :=
  match x with ROk s a => f s a | RThrow s e => RThrow s e | RUB => RUB end.

(** Run a list of commands from left to right, stopping at the first exception or UB. *)
Fixpoint rrun {S C} (step : S -> C -> res S unit) (s : S) (cs : list C) : res S unit :=
  match cs with
  | nil => ROk s tt
  | c :: t => match step s c with
              | ROk s' _ => rrun step s' t
              | RThrow s' e => RThrow s' e
              | RUB => RUB
              end
  end.

Lemma rrun_app {S C} (step : S -> C -> res S unit) s l1 l2 :
  rrun step s (l1 ++ l2) =
  match rrun step s l1 with ROk s' _ => rrun step s' l2 | x => x end.
Proof.
  revert s. induction l1; intros s; simpl; [reflexivity|].
  destruct (step s a); auto.
Qed.
