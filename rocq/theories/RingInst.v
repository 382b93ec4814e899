(** * Ring instances used by the non-vacuity examples *)
From Coq Require Import ZArith QArith Qcanon List.
From Verif Require Import Ring Sums.

(** Integers. *)
Definition Zring : ring.
Proof.
  refine (mkRing Z 0%Z 1%Z Z.add Z.mul Z.opp _ _ _ _ _ _ _ _ _); intros; ring.
Defined.

(** Canonical rationals (a field with Leibniz equality). *)
Definition Qcring : ring.
Proof.
  refine (mkRing Qc (Q2Qc 0) (Q2Qc 1) Qcplus Qcmult Qcopp _ _ _ _ _ _ _ _ _); intros; ring.
Defined.

(** 2x2 matrices over a ring: noncommutative blocks such as FieldMatrix<double,2,2>. *)
Record m2 (A : Type) := M2 { m11 : A; m12 : A; m21 : A; m22 : A }.
Arguments M2 {_}. Arguments m11 {_}. Arguments m12 {_}. Arguments m21 {_}. Arguments m22 {_}.

Definition M2ring (R : ring) : ring.
Proof.
  refine (mkRing (m2 R)
    (M2 r0 r0 r0 r0) (M2 r1 r0 r0 r1)
    (fun a b => M2 (radd (m11 a) (m11 b)) (radd (m12 a) (m12 b))
                   (radd (m21 a) (m21 b)) (radd (m22 a) (m22 b)))
    (fun a b => M2 (radd (rmul (m11 a) (m11 b)) (rmul (m12 a) (m21 b)))
                   (radd (rmul (m11 a) (m12 b)) (rmul (m12 a) (m22 b)))
                   (radd (rmul (m21 a) (m11 b)) (rmul (m22 a) (m21 b)))
                   (radd (rmul (m21 a) (m12 b)) (rmul (m22 a) (m22 b))))
    (fun a => M2 (ropp (m11 a)) (ropp (m12 a)) (ropp (m21 a)) (ropp (m22 a)))
    _ _ _ _ _ _ _ _ _); intros;
  repeat match goal with a : m2 _ |- _ => destruct a end; simpl; f_equal; ncring.
Defined.

(** Inverse on canonical rationals; [None] models the exception for a singular block. *)
Definition Qcinv_opt (q : Qc) : option Qc :=
  if Qc_eq_dec q (Q2Qc 0) then None else Some (Qcinv q).

Lemma Qcinv_opt_ok : forall a b : Qcring, Qcinv_opt a = Some b -> rmul a b = r1 /\ rmul b a = r1.
Proof.
  intros a b H. unfold Qcinv_opt in H. destruct (Qc_eq_dec a (Q2Qc 0)) as [|Hn]; [discriminate|].
  injection H as <-. split; simpl.
  - apply Qcmult_inv_r. exact Hn.
  - rewrite Qcmult_comm. apply Qcmult_inv_r. exact Hn.
Qed.

(** Inverse on integers: only units. *)
Definition Zinv_opt (z : Z) : option Z :=
  if Z.eqb z 1 then Some 1%Z else if Z.eqb z (-1) then Some (-1)%Z else None.

Lemma Zinv_opt_ok : forall a b : Zring, Zinv_opt a = Some b -> rmul a b = r1 /\ rmul b a = r1.
Proof.
  intros a b H. unfold Zinv_opt in H. destruct (Z.eqb_spec a 1).
  - injection H as <-. subst a. split; reflexivity.
  - destruct (Z.eqb_spec a (-1)); [|discriminate]. injection H as <-. subst a. split; reflexivity.
Qed.

(** Inverse of 2x2 rational matrices. *)
Definition M2Qinv (a : m2 Qc) : option (m2 Qc) :=
  let det := (m11 a * m22 a - m12 a * m21 a)%Qc in
  match Qcinv_opt det with
  | None => None
  | Some i => Some (M2 (m22 a * i) (- (m12 a * i)) (- (m21 a * i)) (m11 a * i))%Qc
  end.

Lemma M2Qinv_ok : forall a b : M2ring Qcring, M2Qinv a = Some b -> rmul a b = r1 /\ rmul b a = r1.
Proof.
  intros [a b c d] x H. unfold M2Qinv in H. cbn [m11 m12 m21 m22] in H.
  destruct (Qcinv_opt (a * d - b * c)%Qc) as [i|] eqn:E; [|discriminate].
  injection H as <-.
  apply Qcinv_opt_ok in E. destruct E as [E _]. cbn in E. change (Q2Qc 1) with 1%Qc in E.
  split; cbn; change (Q2Qc 1) with 1%Qc; change (Q2Qc 0) with 0%Qc.
  - f_equal.
    + rewrite <- E. ring.
    + ring.
    + ring.
    + rewrite <- E. ring.
  - f_equal.
    + rewrite <- E. ring.
    + ring.
    + ring.
    + rewrite <- E. ring.
Qed.
