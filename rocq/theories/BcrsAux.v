(** * List lemmas used by the BCRS proofs *)
From Coq Require Import List Arith Bool Lia Sorted Permutation.
From Verif Require Import Sums Outcome BcrsModel.
Import ListNotations.

Section Aux.
  Context {A : Type}.
  Implicit Types l : list A.

  Lemma slice_length off len l : off + len <= length l -> length (slice off len l) = len.
  Proof. intros H. unfold slice. rewrite firstn_length, skipn_length. lia. Qed.

  Lemma skipn_add (l : list A) a b : skipn (a + b) l = skipn b (skipn a l).
  Proof. revert l. induction a; intros [|x l]; simpl; auto. destruct b; reflexivity. Qed.

  Lemma slice_app_mid (a b c : list A) : slice (length a) (length b) (a ++ b ++ c) = b.
  Proof.
    unfold slice. rewrite skipn_app, skipn_all, Nat.sub_diag. simpl.
    rewrite firstn_app, firstn_all, Nat.sub_diag. simpl. apply app_nil_r.
  Qed.

  Lemma slice_app_pre (a b b' c : list A) : slice (length a) (length b) (a ++ (b ++ b') ++ c) = b.
  Proof. rewrite <- app_assoc. apply slice_app_mid. Qed.

  Lemma splice_app_mid (a b b' c : list A) :
    length b' = length b -> splice (length a) b' (a ++ b ++ c) = a ++ b' ++ c.
  Proof.
    intros H. unfold splice.
    rewrite firstn_app, firstn_all, Nat.sub_diag. simpl. rewrite app_nil_r. f_equal. f_equal.
    rewrite skipn_app. rewrite (skipn_all2 a) by lia. simpl.
    replace (length a + length b' - length a) with (length b) by lia.
    rewrite skipn_app, skipn_all, Nat.sub_diag. reflexivity.
  Qed.

  Lemma splice_length off l' l : off + length l' <= length l -> length (splice off l' l) = length l.
  Proof. intros H. unfold splice. rewrite !app_length, firstn_length, skipn_length. lia. Qed.

  Lemma concat_split (ls : list (list A)) i x :
    nth_error ls i = Some x -> concat ls = concat (firstn i ls) ++ x ++ concat (skipn (S i) ls).
  Proof.
    revert i. induction ls as [|y t IH]; intros [|i] H; simpl in *; try discriminate.
    - inversion H; subst. reflexivity.
    - rewrite (IH i H). rewrite <- app_assoc. reflexivity.
  Qed.

  Lemma concat_upd_split (ls : list (list A)) i x :
    i < length ls -> concat (upd ls i x) = concat (firstn i ls) ++ x ++ concat (skipn (S i) ls).
  Proof.
    revert i. induction ls as [|y t IH]; intros [|i] H; simpl in *; try lia.
    - reflexivity.
    - rewrite (IH i) by lia. rewrite <- app_assoc. reflexivity.
  Qed.

  Lemma nth_error_lt (l : list A) i x : nth_error l i = Some x -> i < length l.
  Proof. intros H. apply nth_error_Some. congruence. Qed.

  Lemma nth_error_ex (l : list A) i : i < length l -> exists x, nth_error l i = Some x.
  Proof. intros H. destruct (nth_error l i) eqn:E; eauto. apply nth_error_None in E. lia. Qed.

  Lemma upd_same_map {B} (f : A -> B) (ls : list A) i x y :
    nth_error ls i = Some x -> f y = f x -> map f (upd ls i y) = map f ls.
  Proof.
    revert i. induction ls as [|z t IH]; intros [|i] H E; simpl in *; try discriminate; auto.
    - inversion H; subst. congruence.
    - f_equal. eauto.
  Qed.

  Lemma upd_map {B} (f : A -> B) (ls : list A) i y : map f (upd ls i y) = upd (map f ls) i (f y).
  Proof. revert i. induction ls as [|z t IH]; intros [|i]; simpl; auto. f_equal. auto. Qed.

  Lemma list_eq_nth (l1 l2 : list A) :
    length l1 = length l2 -> (forall i, i < length l1 -> nth_error l1 i = nth_error l2 i) -> l1 = l2.
  Proof.
    revert l2. induction l1 as [|x t IH]; intros [|y t2] HL HN; simpl in *; try discriminate; auto.
    pose proof (HN 0 ltac:(lia)) as H0. simpl in H0. inversion H0; subst. f_equal.
    apply IH; [lia|]. intros i Hi. apply (HN (S i)). lia.
  Qed.

  Lemma nth_error_firstn (l : list A) n i : i < n -> nth_error (firstn n l) i = nth_error l i.
  Proof.
    revert n i. induction l as [|x t IH]; intros [|n] [|i] H; simpl; auto; try lia.
    apply IH. lia.
  Qed.

  Lemma nth_error_skipn (l : list A) n i : nth_error (skipn n l) i = nth_error l (n + i).
  Proof.
    revert n. induction l as [|x t IH]; intros [|n]; simpl; auto.
    destruct i; reflexivity.
  Qed.

  Lemma nth_error_slice (l : list A) off len i :
    i < len -> nth_error (slice off len l) i = nth_error l (off + i).
  Proof. intros H. unfold slice. rewrite nth_error_firstn by auto. apply nth_error_skipn. Qed.

  Lemma nth_error_splice (l l' : list A) off i :
    off + length l' <= length l ->
    nth_error (splice off l' l) i =
    if (off <=? i) && (i <? off + length l') then nth_error l' (i - off) else nth_error l i.
  Proof.
    intros H. unfold splice.
    destruct (Nat.leb_spec off i) as [H1|H1]; simpl.
    - rewrite nth_error_app2; rewrite firstn_length, Nat.min_l by lia; [|lia].
      destruct (Nat.ltb_spec i (off + length l')).
      + apply nth_error_app1. lia.
      + rewrite nth_error_app2 by lia. rewrite nth_error_skipn. f_equal. lia.
    - rewrite nth_error_app1 by (rewrite firstn_length; lia). apply nth_error_firstn. lia.
  Qed.

  Lemma slice_firstn_len (l : list A) off a b : a <= b -> firstn a (slice off b l) = slice off a l.
  Proof. intros H. unfold slice. rewrite firstn_firstn, Nat.min_l by lia. reflexivity. Qed.

  Lemma slice_map {B} (f : A -> B) off len (l : list A) : slice off len (map f l) = map f (slice off len l).
  Proof. unfold slice. rewrite <- firstn_map, <- skipn_map. reflexivity. Qed.

  Lemma map_opt_spec {B} (f : A -> option B) (l : list A) (ys : list B) :
    map_opt f l = Some ys <->
    length ys = length l /\ forall i x, nth_error l i = Some x -> f x = nth_error ys i.
  Proof.
    revert ys. induction l as [|x t IH]; intros ys; simpl.
    - split.
      + intros H. inversion H. split; auto. intros [|i] x Hx; discriminate.
      + intros [H _]. destruct ys; auto. discriminate.
    - split.
      + destruct (f x) eqn:E; [|discriminate]. destruct (map_opt f t) eqn:E2; [|discriminate].
        intros H. inversion H; subst. destruct (proj1 (IH _) eq_refl) as [HL HN].
        split; simpl; [lia|]. intros [|i] z Hz; simpl in *.
        * inversion Hz; subst; auto.
        * eauto.
      + intros [HL HN]. destruct ys as [|y ys]; [discriminate|].
        pose proof (HN 0 x eq_refl) as H0. simpl in H0. rewrite H0.
        assert (E : map_opt f t = Some ys).
        { apply (proj2 (IH ys)). split; [simpl in HL; lia|]. intros i z Hz. apply (HN (S i) z Hz). }
        rewrite E. reflexivity.
  Qed.

  Lemma map_opt_ext {B} (f g : A -> option B) (l : list A) :
    (forall x, In x l -> f x = g x) -> map_opt f l = map_opt g l.
  Proof.
    induction l as [|x t IH]; simpl; intros H; auto.
    rewrite H by auto. rewrite IH by (intros; apply H; auto). reflexivity.
  Qed.

  Lemma map_opt_map {B C} (f : B -> option C) (g : A -> B) (l : list A) :
    map_opt f (map g l) = map_opt (fun x => f (g x)) l.
  Proof. induction l as [|x t IH]; simpl; auto. rewrite IH. reflexivity. Qed.
End Aux.

(** ** sorted index lists *)
Notation ssorted := (StronglySorted lt).

Lemma ss_nodup l : ssorted l -> NoDup l.
Proof.
  induction 1 as [|x l H IH HF]; constructor; auto.
  intros Hin. rewrite Forall_forall in HF. specialize (HF x Hin). lia.
Qed.

Lemma ss_app l1 l2 : ssorted l1 -> ssorted l2 -> (forall x y, In x l1 -> In y l2 -> x < y) -> ssorted (l1 ++ l2).
Proof.
  induction 1 as [|x l H IH HF]; simpl; intros H2 HX; auto.
  constructor.
  - apply IH; auto.
  - apply Forall_app. split; auto. apply Forall_forall. intros y Hy. apply HX; auto.
Qed.

Lemma ss_app_inv l1 l2 : ssorted (l1 ++ l2) -> ssorted l1 /\ ssorted l2 /\ (forall x y, In x l1 -> In y l2 -> x < y).
Proof.
  induction l1 as [|x l IH]; simpl; intros H.
  - split; [constructor|split; auto]. intros ? ? [].
  - inversion H as [|? ? H1 H2]; subst. destruct (IH H1) as (Ha & Hb & Hc).
    apply Forall_app in H2. destruct H2 as [H2 H3].
    split; [constructor; auto|split; auto].
    intros y z [<-|Hy] Hz; auto. rewrite Forall_forall in H3. auto.
Qed.

(** two strictly sorted lists with the same elements are equal *)
Lemma ss_unique l1 l2 : ssorted l1 -> ssorted l2 -> (forall x, In x l1 <-> In x l2) -> l1 = l2.
Proof.
  intros H1. revert l2. induction H1 as [|x l H1 IH HF]; intros l2 H2 HE.
  - destruct l2 as [|y t]; auto. exfalso. apply (HE y). left; auto.
  - destruct H2 as [|y t H2 HG].
    + exfalso. apply (HE x). left; auto.
    + rewrite Forall_forall in HF, HG.
      assert (x = y).
      { assert (Hx : In x (y :: t)) by (apply HE; left; auto).
        assert (Hy : In y (x :: l)) by (apply HE; left; auto).
        destruct Hx as [|Hx]; auto. destruct Hy as [|Hy]; auto.
        specialize (HF _ Hy). specialize (HG _ Hx). lia. }
      subst y. f_equal. apply IH; auto.
      intros z. split; intros Hz.
      * assert (Hz' : In z (x :: t)) by (apply HE; right; auto).
        destruct Hz' as [<-|]; auto. specialize (HF _ Hz). lia.
      * assert (Hz' : In z (x :: l)) by (apply HE; right; auto).
        destruct Hz' as [<-|]; auto. specialize (HG _ Hz). lia.
Qed.

Lemma part_point_app l1 l2 x : Forall (fun y => y < x) l1 -> part_point (l1 ++ l2) x = length l1 + part_point l2 x.
Proof.
  induction 1 as [|y t Hy HF IH]; simpl; auto.
  destruct (Nat.ltb_spec y x); [|lia]. rewrite IH. reflexivity.
Qed.

Lemma part_point_ge l x : Forall (fun y => x <= y) l -> part_point l x = 0.
Proof. intros H. destruct H as [|y t Hy HF]; simpl; auto. destruct (Nat.ltb_spec y x); [lia|reflexivity]. Qed.

Lemma lower_bound_app l1 l2 x :
  Forall (fun y => y < x) l1 -> Forall (fun y => x <= y) l2 -> lower_bound (l1 ++ l2) x = Some (length l1).
Proof.
  intros H1 H2. unfold lower_bound. rewrite part_point_app by auto. rewrite part_point_ge by auto.
  rewrite Nat.add_0_r, skipn_app, skipn_all, Nat.sub_diag. simpl.
  replace (forallb _ l2) with true; auto.
  symmetry. apply forallb_forall. intros y Hy. rewrite Forall_forall in H2. specialize (H2 y Hy).
  destruct (Nat.ltb_spec y x); [lia|reflexivity].
Qed.

(** a sorted list splits around any number *)
Lemma ss_split l x : ssorted l ->
  exists l1 l2, l = l1 ++ l2 /\ Forall (fun y => y < x) l1 /\ Forall (fun y => x <= y) l2.
Proof.
  induction 1 as [|y t H IH HF].
  - exists nil, nil. repeat split; constructor.
  - destruct (Nat.lt_ge_cases y x) as [Hl|Hg].
    + destruct IH as (l1 & l2 & -> & H1 & H2). exists (y :: l1), l2. repeat split; auto.
    + exists nil, (y :: t). repeat split; auto. constructor; auto.
      rewrite Forall_forall in *. intros z Hz. specialize (HF z Hz). lia.
Qed.

(** insertion into a sorted list *)
Lemma set_insert_app l1 l2 x :
  Forall (fun y => y < x) l1 -> Forall (fun y => x <= y) l2 ->
  set_insert x (l1 ++ l2) = l1 ++ set_insert x l2.
Proof.
  intros H1 H2. induction H1 as [|y t Hy HF IH]; simpl; auto.
  destruct (Nat.ltb_spec x y); [lia|]. destruct (Nat.eqb_spec x y); [lia|]. congruence.
Qed.

Lemma set_insert_In x y l : In y (set_insert x l) <-> y = x \/ In y l.
Proof.
  induction l as [|z t IH]; simpl.
  - intuition.
  - destruct (Nat.ltb_spec x z); simpl; [intuition|].
    destruct (Nat.eqb_spec x z); simpl.
    + subst. intuition.
    + rewrite IH. intuition.
Qed.

Lemma set_insert_ss x l : ssorted l -> ssorted (set_insert x l).
Proof.
  induction 1 as [|z t H IH HF]; simpl.
  - repeat constructor.
  - destruct (Nat.ltb_spec x z).
    + constructor; [constructor; auto|]. constructor; auto.
      rewrite Forall_forall in *. intros w Hw. specialize (HF w Hw). lia.
    + destruct (Nat.eqb_spec x z); [constructor; auto|].
      constructor; auto. rewrite Forall_forall in *. intros w Hw.
      apply set_insert_In in Hw. destruct Hw as [->|Hw]; [lia|auto].
Qed.

Lemma set_insert_idem x l : ssorted l -> In x l -> set_insert x l = l.
Proof.
  intros H Hin. apply ss_unique; auto using set_insert_ss.
  intros y. rewrite set_insert_In. intuition. subst. auto.
Qed.

Lemma set_insert_length x l : ssorted l -> ~ In x l -> length (set_insert x l) = S (length l).
Proof.
  induction 1 as [|z t H IH HF]; simpl; intros Hn; auto.
  destruct (Nat.ltb_spec x z); auto.
  destruct (Nat.eqb_spec x z); [subst; tauto|]. simpl. rewrite IH; auto.
Qed.

Definition inserts (js : list nat) (l : list nat) : list nat := fold_left (fun acc j => set_insert j acc) js l.

Lemma inserts_In js l y : In y (inserts js l) <-> In y js \/ In y l.
Proof.
  revert l. induction js as [|j t IH]; intros l; simpl; [intuition|].
  unfold inserts in *. simpl. rewrite IH, set_insert_In. intuition.
Qed.

Lemma inserts_ss js l : ssorted l -> ssorted (inserts js l).
Proof. revert l. induction js as [|j t IH]; intros l H; simpl; auto. apply IH. apply set_insert_ss; auto. Qed.

Lemma inserts_length_mono js l : ssorted l -> length l <= length (inserts js l).
Proof.
  revert l. induction js as [|j t IH]; intros l H; simpl; auto.
  etransitivity; [|apply IH; apply set_insert_ss; auto].
  destruct (in_dec Nat.eq_dec j l) as [Hi|Hi].
  - rewrite set_insert_idem; auto.
  - rewrite set_insert_length; auto.
Qed.
