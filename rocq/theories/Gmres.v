(** * RestartedGMResSolver and RestartedFlexibleGMResSolver (dune/istl/solvers.hh:860-1290): C28 (and C26 for them) *)
From Coq Require Import Arith List Lia Bool ZArith QArith Qcanon.
From Verif Require Import Ring Sums RingInst Outcome Solvers.
Import ListNotations.
Open Scope nat_scope.

Section Gmres.
  Context {K : ring} {V : vspace K}.
  (** real_type = field_type = K (real arithmetic); arbitrary operations, laws only where a theorem asks for them *)
  Variables (finite : K -> bool) (lt_ : K -> K -> bool) (mul_ div_ : K -> K -> K) (zero_ tiny : K).
  Variable reduction : K.
  Variable A : V -> V.
  Variable dot : V -> V -> K.
  Variable nrm : V -> K.
  Variable kdiv : K -> K -> K.
  Variable kabs : K -> K.
  Variable is0 : K -> bool.
  (** abs(.) < 1e-80 *)
  Variable tiny80 : K -> bool.
  (** generatePlaneRotation, solvers.hh:1063-1095: (cs, sn); see C29 for the function itself *)
  Variable rot : K -> K -> K * K.
  Variable P : Type.
  Variable pre : P -> V -> V -> P * V * V.
  Variable papply : P -> V -> V -> P * V.
  Variable post : P -> V -> P * V.

  Local Notation iter := (iter K).
  Local Notation stepf := (step K finite lt_ mul_ tiny reduction).
  Local Notation finalizef := (finalize K lt_ mul_ div_ tiny reduction).

  (** modified Gram-Schmidt, solvers.hh:972-980 and :1216-1225: H[k][i] = dot(v[k],w); w -= H[k][i]*v[k] *)
  Fixpoint mgs (vs : list V) (w : V) : list K * V :=
    match vs with
    | nil => (nil, w)
    | v :: vs' => let h := dot v w in let '(hs, w') := mgs vs' (vadd w (vscale (ropp h) v)) in (h :: hs, w')
    end.
  (** applyPlaneRotation, solvers.hh:1098-1104 (real case): the new (dx, dy) *)
  Definition rotate (cs : K * K) (dx dy : K) : K * K :=
    (radd (rmul (fst cs) dx) (rmul (snd cs) dy), radd (rmul (ropp (snd cs)) dx) (rmul (fst cs) dy)).
  (** solvers.hh:992-993, :1236-1237: the stored rotations on the column H[0..i+1][i], in place.  Result: the rows already final, and the
      pair H[i][i], H[i+1][i] on which the new rotation is computed. *)
  Fixpoint rotcol (rots : list (K * K)) (h : K) (hs : list K) : list K * (K * K) :=
    match rots, hs with
    | cs :: rots', h1 :: hs' => let '(a, b) := rotate cs h h1 in let '(l, q) := rotcol rots' b hs' in (a :: l, q)
    | _, _ => (nil, (h, hd r0 hs))
    end.
  (** State of a cycle.  The preallocated arrays of the code (H, s, cs, sn, v, w) are lists that grow: the entries the code reads in a cycle
      have all been written in the same cycle.  [c_cols]: the columns H[0..i][i] after the rotations; [c_s], [c_last]: s[0..i-1], s[i];
      [c_dirs]: the vectors update() combines.  [c_pairs] is a ghost: the pairs rotations were generated for. *)
  Record cyc := mkCyc { c_p : P; c_v : list V; c_dirs : list V; c_cols : list (list K); c_rots : list (K * K); c_s : list K; c_last : K;
                        c_norm : K; c_j : nat; c_it : iter; c_pairs : list (K * K) }.
  (** The two classes differ in: [flex] = false: GMRes, the image of v[i] is W^-1 A v[i], and the update is in terms of v (solvers.hh:966-971, 1012);
      [flex] = true: FGMRes, w[i] = W^-1 v[i], the image is A w[i], and the update is in terms of w (solvers.hh:1207-1213, 1253). *)
  Variable flex : bool.
  Definition expand (p : P) (v : V) : P * V * V :=
    if flex then let '(p', z) := papply p vz v in (p', z, A z) else let '(p', w) := papply p vz (A v) in (p', v, w).
  (** "cond(norm==0, 0, 1/norm)" in GMRes (solvers.hh:956-958, 986-988), "1.0/norm" in FGMRes (:1198, :1233); [z] = norm==0 *)
  Definition recip (z : bool) (a : K) : K := if negb flex && z then r0 else kdiv r1 a.
  (** one pass of the inner loop, solvers.hh:965-1007, 1204-1249 *)
  Definition arnoldi (st : cyc) : outcome cyc :=
    let '(p', d, w) := expand (c_p st) (last (c_v st) vz) in
    let '(h, w') := mgs (c_v st) w in
    let hn := nrm w' in
    if tiny80 hn then Throw EAbort else
    let vnew := vscale (recip (is0 (c_norm st)) hn) w' in
    let '(col, (dx, dy)) := rotcol (c_rots st) (hd r0 h) (tl h ++ [hn]) in
    let cs := rot dx dy in
    let diag := fst (rotate cs dx dy) in
    let '(s0, s1) := rotate cs (c_last st) r0 in
    let norm := kabs s1 in
    obind (stepf (c_j st) norm (c_it st)) (fun it =>
      Ok (mkCyc p' (c_v st ++ [vnew]) (c_dirs st ++ [d]) (c_cols st ++ [col ++ [diag]]) (c_rots st ++ [cs]) (c_s st ++ [s0]) s1 norm (S (c_j st)) it
            (c_pairs st ++ [(dx, dy)]))).
  (** the inner loop, solvers.hh:964, 1203: [n] = m - i *)
  Fixpoint inner (maxit n : nat) (st : cyc) : outcome cyc :=
    match n with
    | O => Ok st
    | S n' => if (c_j st <=? maxit) && negb (i_conv K (c_it st)) then obind (arnoldi st) (inner maxit n') else Ok st
    end.
  (** update, solvers.hh:1032-1051.  Hget H a b = H[a][b]; [y]: y[a+1..i-1], already computed. *)
  Definition Hget (cols : list (list K)) (a b : nat) : K := nth a (nth b cols nil) r0.
  Fixpoint backsolve (cols : list (list K)) (s : list K) (dirs : list V) (i a : nat) (y : list K) (w : V) : V :=
    match a with
    | O => w
    | S a' =>
      let rhs := fold_left (fun r b => radd r (ropp (rmul (Hget cols a' b) (nth (b - S a') y r0)))) (seq (S a') (i - S a')) (nth a' s r0) in
      let ya := if is0 rhs then r0 else kdiv rhs (Hget cols a' a') in
      backsolve cols s dirs i a' (ya :: y) (vadd w (vscale ya (nth a' dirs vz)))
    end.
  Definition update (st : cyc) : V := backsolve (c_cols st) (c_s st) (c_dirs st) (length (c_cols st)) (length (c_cols st)) nil vz.

  (** start vector: GMRes: W^-1 (b - A x) (solvers.hh:944-946, 1026-1031); FGMRes: b - A x (:1182-1183, :1266-1268).  Result: new preconditioner
      state, the vector, and what b is left as (GMRes overwrites b with the residual, FGMRes does not touch it). *)
  Definition start (p : P) (x b : V) : P * V * V :=
    let r := vsub b (A x) in if flex then (p, r, b) else let '(p', v) := papply p vz r in (p', v, r).
  Record ost := mkO { o_p : P; o_x : V; o_b : V; o_v0 : V; o_norm : K; o_j : nat; o_it : iter; o_pairs : list (K * K) }.
  (** the body of the while loop, solvers.hh:955-1033, 1197-1271; [b2]: the right-hand side used for restarts *)
  Definition cycle (m maxit : nat) (b2 : V) (s : ost) : outcome ost :=
    let v0 := vscale (recip (is0 (o_norm s)) (o_norm s)) (o_v0 s) in
    obind (inner maxit m (mkCyc (o_p s) [v0] nil nil nil nil (o_norm s) (o_norm s) (o_j s) (o_it s) (o_pairs s))) (fun c =>
      let x := vadd (o_x s) (update c) in
      if negb (i_conv K (c_it c)) && (c_j c <? maxit) then
        let '(p', v', b') := start (c_p c) x b2 in Ok (mkO p' x b' v' (nrm v') (c_j c) (c_it c) (c_pairs c))
      else Ok (mkO (c_p c) x (o_b s) (hd vz (c_v c)) (c_norm c) (c_j c) (c_it c) (c_pairs c))).
  (** the while loop; None: not finished after [fuel] passes *)
  Fixpoint outer (fuel m maxit : nat) (b2 : V) (s : ost) : option (outcome ost) :=
    if (o_j s <=? maxit) && negb (i_conv K (o_it s)) then
      match fuel with
      | O => None
      | S f => match cycle m maxit b2 s with Ok s' => outer f m maxit b2 s' | Throw e => Some (Throw e) | UB => Some UB end
      end
    else Some (Ok s).
  Notation answer := (P * V * V * result K * list (nat * K) * list (K * K))%type.
  Definition gmres_finish (s : ost) : answer := let '(p', x') := post (o_p s) (o_x s) in (p', x', o_b s, finalizef 1 (o_it s), i_log K (o_it s), o_pairs s).
  (** apply(x,b,reduction,res), solvers.hh:923-1037 and 1167-1276: the argument "reduction" is not used; the stopping rule uses the configured one *)
  Definition gmres_apply4 (fuel m maxit : nat) (p : P) (x b : V) (red : K) : option (outcome answer) :=
    let '(p1, x1, b1) := pre p x b in
    let '(p2, v0, b') := start p1 x1 b1 in
    match stepf 0 (nrm v0) (iter0 K zero_) with
    | Throw e => Some (Throw e)
    | UB => Some UB
    | Ok it =>
      let s := mkO p2 x1 b' v0 (nrm v0) 1 it nil in
      if i_conv K it then Some (Ok (gmres_finish s)) else
      match outer fuel m maxit (if flex then b1 else b) s with
      | None => None
      | Some (Ok s') => Some (Ok (gmres_finish s'))
      | Some (Throw e) => Some (Throw e)
      | Some UB => Some UB
      end
    end.
  (** apply(x,b,res), solvers.hh:909-912 *)
  Definition gmres_apply (fuel m maxit : nat) (p : P) (x b : V) : option (outcome answer) := gmres_apply4 fuel m maxit p x b reduction.

  (** ** C26 for GMRes and FGMRes, and termination *)
  Notation truthfulf := (truthful K finite lt_ mul_ div_ zero_ tiny reduction).
  Notation at_stepf := (at_step K finite lt_ mul_ zero_ tiny reduction).
  Lemma arnoldi_step st st' k : at_stepf k (c_it st) -> i_conv K (c_it st) = false -> c_j st = S k -> arnoldi st = Ok st' ->
    at_stepf (S k) (c_it st') /\ c_j st' = S (S k) /\ length (c_cols st') = S (length (c_cols st)).
  Proof.
    intros HA HC HJ H. unfold arnoldi in H. destruct (expand _ _) as [[p' d] w]. destruct (mgs _ _) as [h w']. destruct (tiny80 _); [discriminate|].
    destruct (rotcol _ _ _) as [col [dx dy]]. destruct (rotate _ (c_last st) r0) as [s0 s1]. rewrite HJ in H.
    destruct (stepf (S k) _ _) as [it| |] eqn:ES; cbn [obind] in H; try discriminate. injection H as <-. cbn [c_it c_j c_cols].
    split; [eapply step_at; eauto|]. rewrite app_length. cbn. lia.
  Qed.
  Lemma inner_step maxit n : forall st st' k, at_stepf k (c_it st) -> c_j st = S k -> k <= maxit -> inner maxit n st = Ok st' ->
    exists k', at_stepf k' (c_it st') /\ c_j st' = S k' /\ k' <= maxit /\ length (c_cols st') = k' - k + length (c_cols st) /\ k <= k' <= k + n /\
      (k' < k + n -> i_conv K (c_it st') = true \/ k' = maxit) /\ (0 < n -> k < maxit -> i_conv K (c_it st) = false -> k < k').
  Proof.
    induction n as [|n IH]; intros st st' k HA HJ HK H; cbn [inner] in H.
    - injection H as <-. exists k. repeat (split; auto); lia.
    - destruct (c_j st <=? maxit) eqn:EJ; cbn [andb] in H.
      + apply Nat.leb_le in EJ. destruct (i_conv K (c_it st)) eqn:EC; cbn [negb] in H.
        * injection H as <-. exists k. repeat (split; auto); try lia.
        * destruct (arnoldi st) as [st1| |] eqn:EA; cbn [obind] in H; try discriminate. destruct (arnoldi_step _ _ _ HA EC HJ EA) as [A1 [A2 A3]].
          destruct (IH _ _ _ A1 A2 ltac:(lia) H) as [k' [B1 [B2 [B3 [B4 [B5 [B6 B7]]]]]]]. exists k'. repeat (split; auto); try lia. intros. apply B6. lia.
      + apply Nat.leb_gt in EJ. injection H as <-. exists k. repeat (split; auto); try lia.
  Qed.
  Definition o_inv (maxit : nat) (s : ost) : Prop := exists k, at_stepf k (o_it s) /\ o_j s = S k /\ k <= maxit.
  Lemma cycle_step m maxit b2 s s' : o_inv maxit s -> cycle m maxit b2 s = Ok s' ->
    o_inv maxit s' /\ (0 < m -> o_j s <= maxit -> i_conv K (o_it s) = false -> o_j s < o_j s').
  Proof.
    intros [k [H1 [H2 H3]]] H. unfold cycle in H. destruct (inner _ _ _) as [c| |] eqn:EI; cbn [obind] in H; try discriminate.
    pose proof (fun h1 h2 h3 => inner_step maxit m _ _ k h1 h2 h3 EI) as G. cbn [c_it c_j c_cols] in G. destruct (G H1 H2 H3) as [k' [B1 [B2 [B3 [B4 [B5 [B6 B7]]]]]]].
    destruct (negb _ && _); [destruct (start _ _ _) as [[p' v'] b']|]; injection H as <-; split; try (exists k'; cbn; auto); cbn; intros; rewrite H2, B2; specialize (B7 ltac:(auto) ltac:(lia) ltac:(auto)); lia.
  Qed.
  Lemma outer_step fuel m maxit b2 : forall s s', o_inv maxit s -> outer fuel m maxit b2 s = Some (Ok s') -> o_inv maxit s' /\ (i_conv K (o_it s') = false -> o_j s' = S maxit).
  Proof.
    induction fuel as [|f IH]; intros s s' HI H; cbn [outer] in H; destruct ((o_j s <=? maxit) && negb (i_conv K (o_it s))) eqn:EC.
    - discriminate.
    - injection H as <-. split; auto. intros HC. rewrite HC in EC. cbn in EC. rewrite andb_true_r in EC. apply Nat.leb_gt in EC. destruct HI as [k [_ [H2 H3]]]. lia.
    - destruct (cycle m maxit b2 s) as [s1| |] eqn:E1; try discriminate. destruct (cycle_step _ _ _ _ _ HI E1) as [I1 _]. apply (IH _ _ I1 H).
    - injection H as <-. split; auto. intros HC. rewrite HC in EC. cbn in EC. rewrite andb_true_r in EC. apply Nat.leb_gt in EC. destruct HI as [k [_ [H2 H3]]]. lia.
  Qed.
  Lemma outer_terminates m maxit b2 fuel : forall s, 0 < m -> o_inv maxit s -> maxit < fuel + o_j s -> outer fuel m maxit b2 s <> None.
  Proof.
    induction fuel as [|f IH]; intros s Hm HI HF; cbn [outer]; destruct ((o_j s <=? maxit) && negb (i_conv K (o_it s))) eqn:EC; try discriminate.
    - apply andb_prop in EC. destruct EC as [EC _]. apply Nat.leb_le in EC. lia.
    - apply andb_prop in EC. destruct EC as [EC EC2]. apply Nat.leb_le in EC. apply negb_true_iff in EC2.
      destruct (cycle m maxit b2 s) as [s1| |] eqn:E1; try discriminate. destruct (cycle_step _ _ _ _ _ HI E1) as [I1 I2]. apply IH; auto. specialize (I2 Hm EC EC2). lia.
  Qed.
  Lemma gmres_finish_eq s p' x' b' res log prs : gmres_finish s = (p', x', b', res, log, prs) ->
    post (o_p s) (o_x s) = (p', x') /\ b' = o_b s /\ res = finalizef 1 (o_it s) /\ log = i_log K (o_it s) /\ prs = o_pairs s.
  Proof. unfold gmres_finish. destruct (post _ _). intros H. injection H as <- <- <- <- <- <-. auto. Qed.
  Theorem C26_gmres fuel m maxit p x b red p' x' b' res log prs :
    gmres_apply4 fuel m maxit p x b red = Some (Ok (p', x', b', res, log, prs)) -> truthfulf maxit 1 log res.
  Proof.
    unfold gmres_apply4. destruct (pre p x b) as [[p1 x1] b1]. destruct (start p1 x1 b1) as [[p2 v0] bb]. destruct (stepf 0 _ _) as [it| |] eqn:ES; try discriminate.
    pose proof (step0 _ _ _ _ _ _ _ _ _ ES) as HA. destruct (i_conv K it) eqn:EC.
    - intros H. injection H as H. apply gmres_finish_eq in H. destruct H as [_ [_ [-> [-> _]]]]. apply (finalize_truthful _ _ _ _ _ _ _ _ _ _ 0); auto; cbn; [lia|congruence].
    - destruct (outer _ _ _ _ _) as [[s| |]|] eqn:EO; try discriminate. intros H. injection H as H. apply gmres_finish_eq in H. destruct H as [_ [_ [-> [-> _]]]].
      apply outer_step in EO; [|exists 0; cbn; repeat (split; auto); lia]. destruct EO as [[k [K1 [K2 K3]]] KC]. apply (finalize_truthful _ _ _ _ _ _ _ _ _ _ k); auto.
      intros E. specialize (KC E). lia.
  Qed.
  (** With restart >= 1, maxit cycles are enough. *)
  Theorem C28_terminates m maxit p x b red : 0 < m -> gmres_apply4 maxit m maxit p x b red <> None.
  Proof.
    intros Hm. unfold gmres_apply4. destruct (pre p x b) as [[p1 x1] b1]. destruct (start p1 x1 b1) as [[p2 v0] bb]. destruct (stepf 0 _ _) as [it| |] eqn:ES; try discriminate.
    destruct (i_conv K it); try discriminate.
    match goal with |- context [outer ?f ?m ?mx ?b ?s] => pose proof (outer_terminates m mx b f s Hm) as HT; destruct (outer f m mx b s) as [[| |]|] end; try discriminate.
    exfalso. apply HT; auto; [|cbn; lia]. exists 0. cbn. split; [eapply step0; eauto|]. lia.
  Qed.
  (** With restart = 0 the solver does not terminate, unless the initial guess already satisfies the stopping rule or maxit = 0. *)
  Theorem C28_restart0_refuted maxit p x b red fuel : 0 < maxit -> (forall p1 x1 b1, pre p x b = (p1, x1, b1) -> forall p2 v0 b', start p1 x1 b1 = (p2, v0, b') ->
      finite (nrm v0) = true /\ stop K lt_ mul_ tiny reduction (nrm v0) (nrm v0) = false) -> gmres_apply4 fuel 0 maxit p x b red = None.
  Proof.
    intros Hx HS. unfold gmres_apply4. destruct (pre p x b) as [[p1 x1] b1] eqn:EP. destruct (start p1 x1 b1) as [[p2 v0] bb] eqn:ES.
    destruct (HS _ _ _ eq_refl _ _ _ ES) as [HF HN]. unfold step. rewrite HF. cbn [negb Nat.eqb i_conv]. rewrite HN.
    match goal with |- context [outer _ _ _ ?b ?s] => set (b2 := b); assert (G : forall f s0, o_j s0 = 1 -> i_conv K (o_it s0) = false -> outer f 0 maxit b2 s0 = None) end.
    { clear HS HF HN. induction f as [|f IH]; intros s0 HJ HC; cbn [outer]; rewrite HJ, HC; (replace (1 <=? maxit) with true by (symmetry; apply Nat.leb_le; lia)); cbn [andb negb]; auto.
      unfold cycle. cbn [inner obind c_it c_j c_p]. rewrite HC, HJ. cbn [negb andb]. destruct (1 <? maxit).
      - match goal with |- context [start ?a ?b ?c] => destruct (start a b c) as [[q1 q2] q3] end. apply IH; cbn; auto.
      - apply IH; cbn; auto. }
    rewrite G; auto.
  Qed.
End Gmres.
Print Assumptions C26_gmres.
Print Assumptions C28_terminates.
Print Assumptions C28_restart0_refuted.
