(** * Proof tool: equalities of linear combinations of vectors (no model content)

    [vring tac] proves v = w in a [vspace] by comparing the coefficients of every atom; [tac] proves the scalar equations. *)
From Coq Require Import Arith List Lia.
From Verif Require Import Ring Solvers.
Import ListNotations.
Open Scope nat_scope.

Section VR.
  Context {K : ring} {V : vspace K}.
  Inductive vex := VA (n : nat) | V0 | VP (a b : vex) | VS (k : K) (a : vex) | VM (a b : vex).
  Fixpoint vden (env : list V) (e : vex) : V :=
    match e with
    | VA n => nth n env vz | V0 => vz | VP a b => vadd (vden env a) (vden env b) | VS k a => vscale k (vden env a)
    | VM a b => vsub (vden env a) (vden env b)
    end.
  Fixpoint coef (e : vex) (n : nat) : K :=
    match e with
    | VA m => if m =? n then r1 else r0 | V0 => r0 | VP a b => radd (coef a n) (coef b n) | VS k a => rmul k (coef a n)
    | VM a b => radd (coef a n) (rmul (ropp r1) (coef b n))
    end.
  (** sum over positions [0, length env) *)
  Fixpoint lin (f : nat -> K) (env : list V) : V :=
    match env with nil => vz | v :: t => vadd (vscale (f 0) v) (lin (fun n => f (S n)) t) end.
  Lemma lin_ext f g env : (forall n, n < length env -> f n = g n) -> lin f env = lin g env.
  Proof. revert f g. induction env as [|v t IH]; intros f g H; cbn; [reflexivity|]. rewrite (H 0) by (cbn; lia). f_equal. apply IH. intros n Hn. apply H. cbn. lia. Qed.
  Lemma lin_0 env : lin (fun _ => r0) env = vz.
  Proof. induction env as [|v t IH]; cbn; [reflexivity|]. rewrite IH, vscale_0. apply vadd_0. Qed.
  Lemma vadd4 (a b c d : V) : vadd (vadd a b) (vadd c d) = vadd (vadd a c) (vadd b d).
  Proof. rewrite <- !vadd_assoc. f_equal. rewrite !vadd_assoc. f_equal. apply vadd_comm. Qed.
  Lemma lin_add f g env : vadd (lin f env) (lin g env) = lin (fun n => radd (f n) (g n)) env.
  Proof. revert f g. induction env as [|v t IH]; intros f g; cbn; [apply vadd_0|]. rewrite vadd4, IH, <- vscale_add_l. reflexivity. Qed.
  Lemma vscale_vz k : vscale k (vz : V) = vz.
  Proof. rewrite <- (vscale_0 K V vz), <- vscale_mul. replace (rmul k r0) with (r0 : K) by ncring. reflexivity. Qed.
  Lemma lin_scale k f env : vscale k (lin f env) = lin (fun n => rmul k (f n)) env.
  Proof. revert f. induction env as [|v t IH]; intros f; cbn; [apply vscale_vz|]. rewrite vscale_add_r, IH, <- vscale_mul. reflexivity. Qed.
  Lemma lin_atom m : forall env, m < length env -> lin (fun n => if m =? n then r1 else r0) env = nth m env vz.
  Proof.
    induction m as [|m IH]; intros [|v t] H; cbn in H; try lia; cbn.
    - rewrite lin_0, vscale_1. apply vadd_0.
    - rewrite vscale_0, IH by lia. rewrite vadd_comm. apply vadd_0.
  Qed.
  Fixpoint bounded (N : nat) (e : vex) : bool :=
    match e with VA n => n <? N | V0 => true | VP a b | VM a b => bounded N a && bounded N b | VS _ a => bounded N a end.
  Lemma vden_lin env e : bounded (length env) e = true -> vden env e = lin (coef e) env.
  Proof.
    induction e as [n| |a IHa b IHb|k a IHa|a IHa b IHb]; cbn [bounded vden coef]; intros H.
    - apply Nat.ltb_lt in H. symmetry. apply lin_atom, H.
    - symmetry. apply lin_0.
    - apply Bool.andb_true_iff in H. destruct H. rewrite IHa, IHb by assumption. apply lin_add.
    - rewrite IHa by assumption. apply lin_scale.
    - apply Bool.andb_true_iff in H. destruct H. unfold vsub. rewrite IHa, IHb by assumption. rewrite lin_scale. apply lin_add.
  Qed.
  Fixpoint all_coef (N : nat) (a b : vex) : Prop :=
    match N with O => True | S N => coef a N = coef b N /\ all_coef N a b end.
  Lemma all_coef_spec N a b : all_coef N a b -> forall n, n < N -> coef a n = coef b n.
  Proof. induction N as [|N IH]; intros H n Hn; [lia|]. destruct H as [H1 H2]. destruct (Nat.eq_dec n N) as [->|Q]; [exact H1|]. apply IH; [exact H2|lia]. Qed.
  Lemma vring_ok env a b : bounded (length env) a = true -> bounded (length env) b = true -> all_coef (length env) a b -> vden env a = vden env b.
  Proof. intros Ba Bb H. rewrite !vden_lin by assumption. apply lin_ext, all_coef_spec, H. Qed.
End VR.

Ltac vr_index v env :=
  lazymatch env with
  | cons v _ => constr:(0)
  | cons _ ?t => let n := vr_index v t in constr:(S n)
  end.
Ltac vr_mem v env :=
  lazymatch env with
  | cons v _ => constr:(true)
  | cons _ ?t => vr_mem v t
  | _ => constr:(false)
  end.
Ltac vr_atoms e env :=
  lazymatch e with
  | vz => env
  | vadd ?a ?b => let env := vr_atoms a env in vr_atoms b env
  | vsub ?a ?b => let env := vr_atoms a env in vr_atoms b env
  | vscale _ ?a => vr_atoms a env
  | ?v => lazymatch vr_mem v env with true => env | false => constr:(cons v env) end
  end.
Ltac vr_reify K e env :=
  lazymatch e with
  | vz => constr:(@V0 K)
  | vadd ?a ?b => let x := vr_reify K a env in let y := vr_reify K b env in constr:(@VP K x y)
  | vsub ?a ?b => let x := vr_reify K a env in let y := vr_reify K b env in constr:(@VM K x y)
  | vscale ?k ?a => let x := vr_reify K a env in constr:(@VS K k x)
  | ?v => let n := vr_index v env in constr:(@VA K n)
  end.
Ltac vring tac :=
  lazymatch goal with
  | |- @eq (@vcar ?K ?V) ?a ?b =>
    let env := vr_atoms a (@nil (@vcar K V)) in
    let env := vr_atoms b env in
    let x := vr_reify K a env in let y := vr_reify K b env in
    change (@vden K V env x = @vden K V env y); apply vring_ok; [reflexivity|reflexivity|];
    cbn [all_coef length coef Nat.eqb]; repeat split; tac
  end.
