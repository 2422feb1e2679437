(** * General lemmas: lists, orders, sums, Qc inequalities. *)
From Coq Require Import List Arith Lia Bool ZArith QArith Qcanon Permutation Sorted Relations Lqa.
From Verif Require Import Prelude Spec.
Import ListNotations.
Open Scope nat_scope.

(** ** Qc comparisons *)
Lemma qltb_lt : forall x y, qltb x y = true <-> (x < y)%Qc.
Proof.
  intros x y. unfold qltb. rewrite Qclt_alt.
  destruct (x ?= y)%Qc; split; congruence.
Qed.
Lemma qltb_nlt : forall x y, qltb x y = false <-> (y <= x)%Qc.
Proof.
  intros x y. split.
  - intro H. destruct (Qclt_le_dec x y) as [L|L]; [|exact L].
    apply qltb_lt in L. congruence.
  - intro H. destruct (qltb x y) eqn:E; [|reflexivity].
    apply qltb_lt in E. exfalso. apply (Qclt_not_le _ _ E H).
Qed.
Lemma qleb_le : forall x y, qleb x y = true <-> (x <= y)%Qc.
Proof.
  intros. unfold qleb. rewrite negb_true_iff. apply qltb_nlt.
Qed.
Lemma qeqb_eq : forall x y, qeqb x y = true <-> x = y.
Proof.
  intros x y. unfold qeqb. split.
  - apply Qc_eq_bool_correct.
  - intro H. subst. unfold Qc_eq_bool. destruct (Qc_eq_dec y y); congruence.
Qed.
Lemma qeqb_neq : forall x y, qeqb x y = false <-> x <> y.
Proof.
  intros x y. destruct (qeqb x y) eqn:E.
  - apply qeqb_eq in E. split; congruence.
  - split; [|reflexivity]. intros _ H. apply qeqb_eq in H. congruence.
Qed.
Lemma qeqb_refl : forall x, qeqb x x = true.
Proof. intro x. apply qeqb_eq. reflexivity. Qed.

(** Linear arithmetic on Qc through Q. *)
Lemma Qc_this_plus : forall x y : Qc, (this (x + y)%Qc == this x + this y)%Q.
Proof. intros. apply Qred_correct. Qed.
Lemma Qc_this_mult : forall x y : Qc, (this (x * y)%Qc == this x * this y)%Q.
Proof. intros. apply Qred_correct. Qed.
Lemma Qc_this_opp : forall x : Qc, (this (- x)%Qc == - this x)%Q.
Proof. intros. apply Qred_correct. Qed.
Lemma Qc_this_minus : forall x y : Qc, (this (x - y)%Qc == this x - this y)%Q.
Proof. intros. unfold Qcminus. rewrite Qc_this_plus, Qc_this_opp. reflexivity. Qed.
Lemma Qc_eq_this : forall x y : Qc, x = y <-> (this x == this y)%Q.
Proof. intros. split; [intros ->; reflexivity| apply Qc_is_canon]. Qed.
Lemma Qc_this_0 : this 0%Qc = 0%Q. Proof. reflexivity. Qed.
Lemma Qc_this_1 : this 1%Qc = 1%Q. Proof. reflexivity. Qed.

Ltac qc2q :=
  repeat match goal with
  | H : (_ < _)%Qc |- _ => unfold Qclt in H
  | H : (_ <= _)%Qc |- _ => unfold Qcle in H
  | H : @eq Qc _ _ |- _ => apply Qc_eq_this in H
  | H : ~ @eq Qc _ _ |- _ => rewrite Qc_eq_this in H
  end;
  try apply Qc_is_canon; try unfold Qclt; try unfold Qcle;
  repeat match goal with
  | H : context [this (_ + _)%Qc] |- _ => setoid_rewrite Qc_this_plus in H
  | H : context [this (_ - _)%Qc] |- _ => setoid_rewrite Qc_this_minus in H
  | H : context [this (- _)%Qc] |- _ => setoid_rewrite Qc_this_opp in H
  | H : context [this (_ * _)%Qc] |- _ => setoid_rewrite Qc_this_mult in H
  | |- context [this (_ + _)%Qc] => setoid_rewrite Qc_this_plus
  | |- context [this (_ - _)%Qc] => setoid_rewrite Qc_this_minus
  | |- context [this (- _)%Qc] => setoid_rewrite Qc_this_opp
  | |- context [this (_ * _)%Qc] => setoid_rewrite Qc_this_mult
  end;
  repeat rewrite Qc_this_0 in *; repeat rewrite Qc_this_1 in *.
Ltac qclra := qc2q; lra.

Goal forall x y z : Qc, (x < y -> y <= z -> x + 1 < z + 1 + 0)%Qc.
Proof. intros. qclra. Qed.

Lemma qabs_nonneg : forall x, (0 <= qabs x)%Qc.
Proof.
  intro x. unfold qabs. destruct (qltb x 0) eqn:E.
  - apply qltb_lt in E. qclra.
  - apply qltb_nlt in E. exact E.
Qed.
Lemma qabs_0 : forall x, qabs x = 0%Qc <-> x = 0%Qc.
Proof.
  intro x. unfold qabs. destruct (qltb x 0) eqn:E; [|reflexivity].
  apply qltb_lt in E. split; intro H; qclra.
Qed.
Lemma qabs_pos : forall x, (0 < qabs x)%Qc <-> x <> 0%Qc.
Proof.
  intro x. split.
  - intros H E. apply qabs_0 in E. rewrite E in H. apply (Qclt_not_eq _ _ H). reflexivity.
  - intro H. destruct (Qcle_lt_or_eq _ _ (qabs_nonneg x)) as [L|L]; [exact L|].
    exfalso. apply H. apply qabs_0. symmetry. exact L.
Qed.

(** ** Sums *)
Lemma qsum_app : forall l1 l2, qsum (l1 ++ l2) = (qsum l1 + qsum l2)%Qc.
Proof.
  induction l1 as [|x l1 IH]; intro l2; simpl.
  - ring.
  - unfold qsum in *. rewrite IH. ring.
Qed.
Lemma sumf_nil : forall A (f : A -> Qc), sumf [] f = 0%Qc.
Proof. reflexivity. Qed.
Lemma sumf_cons : forall A (f : A -> Qc) x l, sumf (x :: l) f = (f x + sumf l f)%Qc.
Proof. reflexivity. Qed.
Lemma sumf_app : forall A (f : A -> Qc) l1 l2, sumf (l1 ++ l2) f = (sumf l1 f + sumf l2 f)%Qc.
Proof. intros. unfold sumf. rewrite map_app. apply qsum_app. Qed.
Lemma sumf_ext : forall A (f g : A -> Qc) l,
  (forall x, In x l -> f x = g x) -> sumf l f = sumf l g.
Proof.
  intros A f g l H. unfold sumf. f_equal. apply map_ext_in. exact H.
Qed.
Lemma sumf_zero : forall A (f : A -> Qc) l,
  (forall x, In x l -> f x = 0%Qc) -> sumf l f = 0%Qc.
Proof.
  induction l as [|x l IH]; intro H; [reflexivity|].
  rewrite sumf_cons, IH, (H x); [ring|left; reflexivity|].
  intros y Hy. apply H. right. exact Hy.
Qed.
Lemma sumf_plus : forall A (f g : A -> Qc) l,
  sumf l (fun x => f x + g x)%Qc = (sumf l f + sumf l g)%Qc.
Proof.
  induction l as [|x l IH]; [reflexivity|]. rewrite !sumf_cons, IH. ring.
Qed.
Lemma sumf_scal : forall A (f : A -> Qc) c l,
  sumf l (fun x => c * f x)%Qc = (c * sumf l f)%Qc.
Proof.
  induction l as [|x l IH]; [unfold sumf; simpl; ring|]. rewrite !sumf_cons, IH. ring.
Qed.
Lemma sumf_scal_r : forall A (f : A -> Qc) c l,
  sumf l (fun x => f x * c)%Qc = (sumf l f * c)%Qc.
Proof.
  induction l as [|x l IH]; [unfold sumf; simpl; ring|]. rewrite !sumf_cons, IH. ring.
Qed.
Lemma sumf_opp : forall A (f : A -> Qc) l,
  sumf l (fun x => - f x)%Qc = (- sumf l f)%Qc.
Proof.
  induction l as [|x l IH]; [unfold sumf; simpl; ring|]. rewrite !sumf_cons, IH. ring.
Qed.
Lemma sumf_minus : forall A (f g : A -> Qc) l,
  sumf l (fun x => f x - g x)%Qc = (sumf l f - sumf l g)%Qc.
Proof.
  induction l as [|x l IH]; [unfold sumf; simpl; ring|]. rewrite !sumf_cons, IH. ring.
Qed.
Lemma sumf_perm : forall A (f : A -> Qc) l1 l2, Permutation l1 l2 -> sumf l1 f = sumf l2 f.
Proof.
  intros A f l1 l2 H. induction H; rewrite ?sumf_cons; try congruence; try ring.
Qed.
Lemma sumf_swap : forall A B (f : A -> B -> Qc) l1 l2,
  sumf l1 (fun x => sumf l2 (f x)) = sumf l2 (fun y => sumf l1 (fun x => f x y)).
Proof.
  induction l1 as [|x l1 IH]; intro l2.
  - rewrite sumf_nil. symmetry. apply sumf_zero. reflexivity.
  - rewrite sumf_cons, IH, <- sumf_plus. apply sumf_ext. intros y _.
    rewrite sumf_cons. reflexivity.
Qed.
Lemma sumf_map : forall A B (g : A -> B) (f : B -> Qc) l,
  sumf (map g l) f = sumf l (fun x => f (g x)).
Proof. intros. unfold sumf. rewrite map_map. reflexivity. Qed.
Lemma sumf_flat_map : forall A B (g : A -> list B) (f : B -> Qc) l,
  sumf (flat_map g l) f = sumf l (fun x => sumf (g x) f).
Proof.
  induction l as [|x l IH]; [reflexivity|]. simpl. rewrite sumf_app, IH, sumf_cons. reflexivity.
Qed.
Lemma sumf_nonneg : forall A (f : A -> Qc) l,
  (forall x, In x l -> (0 <= f x)%Qc) -> (0 <= sumf l f)%Qc.
Proof.
  induction l as [|x l IH]; intro H.
  - apply Qcle_refl.
  - rewrite sumf_cons. assert (H1 := H x (or_introl eq_refl)).
    assert (H2 : (0 <= sumf l f)%Qc) by (apply IH; intros; apply H; right; assumption).
    qclra.
Qed.
Lemma sumf_le : forall A (f g : A -> Qc) l,
  (forall x, In x l -> (f x <= g x)%Qc) -> (sumf l f <= sumf l g)%Qc.
Proof.
  induction l as [|x l IH]; intro H.
  - apply Qcle_refl.
  - rewrite !sumf_cons. assert (H1 := H x (or_introl eq_refl)).
    assert (H2 : (sumf l f <= sumf l g)%Qc) by (apply IH; intros; apply H; right; assumption).
    qclra.
Qed.
Lemma sumf_in_le : forall A (f : A -> Qc) l y,
  (forall x, In x l -> (0 <= f x)%Qc) -> In y l -> (f y <= sumf l f)%Qc.
Proof.
  induction l as [|x l IH]; intros y H Hy; [contradiction|].
  rewrite sumf_cons. assert (H1 := H x (or_introl eq_refl)).
  assert (H2 : (0 <= sumf l f)%Qc) by (apply sumf_nonneg; intros; apply H; right; assumption).
  destruct Hy as [<-|Hy].
  - qclra.
  - assert (H3 : (f y <= sumf l f)%Qc) by (apply IH; [intros; apply H; right; assumption|exact Hy]).
    qclra.
Qed.
Lemma sumf_nonneg_zero : forall A (f : A -> Qc) l,
  (forall x, In x l -> (0 <= f x)%Qc) -> sumf l f = 0%Qc -> forall x, In x l -> f x = 0%Qc.
Proof.
  intros A f l H E x Hx. assert (L := sumf_in_le _ f l x H Hx). rewrite E in L.
  apply Qcle_antisym; [exact L|apply H; exact Hx].
Qed.
Lemma sumn_ext : forall n f g, (forall i, i < n -> f i = g i) -> sumn n f = sumn n g.
Proof. intros n f g H. apply sumf_ext. intros x Hx. apply H. apply in_seq in Hx. lia. Qed.
Lemma sumn_zero : forall n f, (forall i, i < n -> f i = 0%Qc) -> sumn n f = 0%Qc.
Proof. intros n f H. apply sumf_zero. intros x Hx. apply H. apply in_seq in Hx. lia. Qed.
Lemma sumn_S : forall n f, sumn (S n) f = (sumn n f + f n)%Qc.
Proof.
  intros. unfold sumn. rewrite seq_S, sumf_app, sumf_cons, sumf_nil. simpl. ring.
Qed.
Lemma sumn_single : forall n f k, k < n -> (forall i, i < n -> i <> k -> f i = 0%Qc) ->
  sumn n f = f k.
Proof.
  induction n as [|n IH]; intros f k Hk H; [lia|].
  rewrite sumn_S. destruct (Nat.eq_dec k n) as [->|D].
  - rewrite sumn_zero; [ring|]. intros i Hi. apply H; lia.
  - rewrite (IH f k), (H n); [ring|lia|lia|lia|]. intros i Hi Hd. apply H; lia.
Qed.

(** ** Lists *)
Lemma memb_In : forall x l, memb x l = true <-> In x l.
Proof.
  intros. unfold memb. rewrite existsb_exists. split.
  - intros [y [H E]]. apply Nat.eqb_eq in E. subst. exact H.
  - intro H. exists x. split; [exact H|apply Nat.eqb_refl].
Qed.
Lemma memb_notIn : forall x l, memb x l = false <-> ~ In x l.
Proof.
  intros. rewrite <- memb_In. destruct (memb x l); split; congruence.
Qed.
Lemma remove_nat_In : forall m l x, In x (remove_nat m l) <-> In x l /\ x <> m.
Proof.
  intros. unfold remove_nat. rewrite filter_In, negb_true_iff, Nat.eqb_neq. reflexivity.
Qed.
Lemma remove_nat_notin : forall m l, ~ In m l -> remove_nat m l = l.
Proof.
  induction l as [|x l IH]; intro H; [reflexivity|]. simpl.
  destruct (x =? m) eqn:E.
  - apply Nat.eqb_eq in E. subst. exfalso. apply H. left. reflexivity.
  - simpl. f_equal. apply IH. intro. apply H. right. assumption.
Qed.
Lemma remove_nat_perm : forall m l, NoDup l -> In m l -> Permutation l (m :: remove_nat m l).
Proof.
  induction l as [|x l IH]; intros ND H; [contradiction|].
  inversion ND as [|? ? Hx ND']; subst. simpl.
  destruct (x =? m) eqn:E.
  - apply Nat.eqb_eq in E. subst. simpl. change (filter _ l) with (remove_nat m l).
    rewrite remove_nat_notin by exact Hx. apply Permutation_refl.
  - simpl. destruct H as [->|H]; [rewrite Nat.eqb_refl in E; discriminate|].
    change (filter _ l) with (remove_nat m l).
    eapply perm_trans; [apply perm_skip, IH; assumption|apply perm_swap].
Qed.
Lemma remove_nat_length : forall m l, NoDup l -> In m l -> length l = S (length (remove_nat m l)).
Proof. intros m l ND H. apply (Permutation_length (remove_nat_perm m l ND H)). Qed.
Lemma remove_nat_NoDup : forall m l, NoDup l -> NoDup (remove_nat m l).
Proof. intros. apply NoDup_filter. assumption. Qed.
Lemma index_of_some : forall x l i, index_of x l = Some i -> nth_error l i = Some x.
Proof.
  induction l as [|y l IH]; intros i H; [discriminate|]. simpl in H.
  destruct (y =? x) eqn:E.
  - inversion H. subst. apply Nat.eqb_eq in E. subst. reflexivity.
  - destruct (index_of x l) as [k|]; simpl in H; [|discriminate]. inversion H. subst.
    simpl. apply IH. reflexivity.
Qed.
Lemma index_of_none : forall x l, index_of x l = None <-> ~ In x l.
Proof.
  induction l as [|y l IH]; simpl; [tauto|].
  destruct (y =? x) eqn:E.
  - apply Nat.eqb_eq in E. split; [discriminate|]. intro H. exfalso. apply H. left. exact E.
  - apply Nat.eqb_neq in E. destruct (index_of x l); simpl.
    + split; [discriminate|]. intro H. exfalso. apply H. right.
      destruct (in_dec Nat.eq_dec x l) as [I|I]; [exact I|]. apply IH in I. discriminate.
    + split; [|reflexivity]. intros _ [H|H]; [congruence|]. apply IH; [reflexivity|exact H].
Qed.

Lemma argbest_bound : forall better l best bi i,
  bi < i -> argbest better best bi i l < i + length l.
Proof.
  induction l as [|x l IH]; intros best bi i H; simpl; [lia|].
  destruct best as [b|]; [|lia]. destruct x as [v|]; [|lia].
  destruct (better v b).
  - specialize (IH (Some v) i (S i)). lia.
  - specialize (IH (Some b) bi (S i)). lia.
Qed.
Lemma np_argmax_bound : forall l k, np_argmax l = Some k -> k < length l.
Proof.
  intros [|x l] k H; simpl in H; [discriminate|]. inversion H.
  pose proof (argbest_bound (fun v b => qltb b v) l x 0 1). simpl. lia.
Qed.
Lemma np_argmin_bound : forall l k, np_argmin l = Some k -> k < length l.
Proof.
  intros [|x l] k H; simpl in H; [discriminate|]. inversion H.
  pose proof (argbest_bound qltb l x 0 1). simpl. lia.
Qed.

(** ** precedes *)
Lemma precedes_In : forall l a b, precedes l a b -> In a l /\ In b l.
Proof.
  intros l a b [l1 [l2 [l3 ->]]]. split.
  - apply in_or_app. right. left. reflexivity.
  - apply in_or_app. right. right. apply in_or_app. right. left. reflexivity.
Qed.
Lemma precedes_app_l : forall l l' a b, precedes l a b -> precedes (l ++ l') a b.
Proof.
  intros l l' a b [l1 [l2 [l3 ->]]]. exists l1, l2, (l3 ++ l').
  rewrite <- app_assoc. simpl. rewrite <- app_assoc. reflexivity.
Qed.
Lemma precedes_app_r : forall l l' a b, precedes l a b -> precedes (l' ++ l) a b.
Proof.
  intros l l' a b [l1 [l2 [l3 ->]]]. exists (l' ++ l1), l2, l3.
  rewrite <- app_assoc. reflexivity.
Qed.
Lemma precedes_app_cross : forall l l' a b, In a l -> In b l' -> precedes (l ++ l') a b.
Proof.
  intros l l' a b Ha Hb. apply in_split in Ha. apply in_split in Hb.
  destruct Ha as [x1 [x2 ->]]. destruct Hb as [y1 [y2 ->]].
  exists x1, (x2 ++ y1), y2. rewrite <- !app_assoc. reflexivity.
Qed.
Lemma precedes_app_inv : forall l l' a b, precedes (l ++ l') a b ->
  precedes l a b \/ (In a l /\ In b l') \/ precedes l' a b.
Proof.
  intros l l' a b [l1 [l2 [l3 H]]].
  revert l1 H. induction l as [|x l IH]; intros l1 H.
  - right. right. exists l1, l2, l3. exact H.
  - destruct l1 as [|y l1]; simpl in H; inversion H; subst.
    + match goal with H0 : l ++ l' = _ |- _ =>
        assert (Hb : In b (l ++ l')) by (rewrite H0; apply in_or_app; right; left; reflexivity) end.
      apply in_app_or in Hb. destruct Hb as [Hb|Hb].
      * left. apply in_split in Hb. destruct Hb as [u [v ->]]. exists [], u, v. reflexivity.
      * right. left. split; [left; reflexivity|exact Hb].
    + destruct (IH l1) as [P|[[P1 P2]|P]]; [assumption| | |].
      * left. destruct P as [u [v [w ->]]]. exists (y :: u), v, w. reflexivity.
      * right. left. split; [right; exact P1|exact P2].
      * right. right. exact P.
Qed.
Lemma precedes_nth : forall l a b, precedes l a b <->
  exists i j, i < j /\ nth_error l i = Some a /\ nth_error l j = Some b.
Proof.
  intros l a b. split.
  - intros [l1 [l2 [l3 ->]]]. exists (length l1), (length l1 + S (length l2)).
    split; [lia|]. split.
    + rewrite nth_error_app2 by lia. rewrite Nat.sub_diag. reflexivity.
    + rewrite nth_error_app2 by lia.
      replace (length l1 + S (length l2) - length l1) with (S (length l2)) by lia.
      simpl. rewrite nth_error_app2 by lia. rewrite Nat.sub_diag. reflexivity.
  - intros [i [j [Hij [Hi Hj]]]].
    apply nth_error_split in Hi. destruct Hi as [l1 [l2 [-> Hl]]].
    rewrite nth_error_app2 in Hj by lia.
    destruct (j - length l1) as [|k] eqn:E; [lia|]. simpl in Hj.
    apply nth_error_split in Hj. destruct Hj as [m1 [m2 [-> Hm]]].
    exists l1, m1, m2. reflexivity.
Qed.
Lemma NoDup_nth_inj : forall (l : list nat) i j x, NoDup l ->
  nth_error l i = Some x -> nth_error l j = Some x -> i = j.
Proof.
  intros l i j x ND Hi Hj. rewrite NoDup_nth_error in ND. apply ND.
  - apply nth_error_Some. congruence.
  - congruence.
Qed.
Lemma precedes_irrefl : forall l a, NoDup l -> ~ precedes l a a.
Proof.
  intros l a ND H. apply precedes_nth in H. destruct H as [i [j [L [Hi Hj]]]].
  assert (i = j) by (eapply NoDup_nth_inj; eassumption). lia.
Qed.
Lemma precedes_trans : forall l a b c, NoDup l -> precedes l a b -> precedes l b c -> precedes l a c.
Proof.
  intros l a b c ND H1 H2. rewrite precedes_nth in *.
  destruct H1 as [i [j [L1 [Hi Hj]]]]. destruct H2 as [j' [k [L2 [Hj' Hk]]]].
  assert (j = j') by (eapply NoDup_nth_inj; eassumption). subst j'.
  exists i, k. repeat split; try assumption; lia.
Qed.
Lemma precedes_asym : forall l a b, NoDup l -> precedes l a b -> ~ precedes l b a.
Proof.
  intros l a b ND H1 H2. apply (precedes_irrefl l a ND). eapply precedes_trans; eassumption.
Qed.
Lemma precedes_total : forall l a b, In a l -> In b l -> a <> b -> precedes l a b \/ precedes l b a.
Proof.
  intros l a b Ha Hb D. apply In_nth_error in Ha. apply In_nth_error in Hb.
  destruct Ha as [i Hi]. destruct Hb as [j Hj].
  destruct (Nat.lt_trichotomy i j) as [L|[L|L]].
  - left. apply precedes_nth. exists i, j. auto.
  - subst. congruence.
  - right. apply precedes_nth. exists j, i. auto.
Qed.
Lemma is_order_NoDup : forall n l, is_order n l -> NoDup l.
Proof.
  intros n l H. eapply Permutation_NoDup; [apply Permutation_sym; exact H|apply seq_NoDup].
Qed.
Lemma is_order_In : forall n l, is_order n l -> forall x, In x l <-> x < n.
Proof.
  intros n l H x. split; intro I.
  - apply (Permutation_in x H) in I. apply in_seq in I. lia.
  - apply (Permutation_in x (Permutation_sym H)). apply in_seq. lia.
Qed.
Lemma is_order_length : forall n l, is_order n l -> length l = n.
Proof. intros n l H. apply Permutation_length in H. rewrite seq_length in H. exact H. Qed.
Lemma is_order_iff : forall n l, is_order n l <-> NoDup l /\ (forall x, In x l <-> x < n).
Proof.
  intros n l. split.
  - intro H. split; [eapply is_order_NoDup|eapply is_order_In]; eassumption.
  - intros [ND H]. apply NoDup_Permutation; [exact ND|apply seq_NoDup|].
    intro x. rewrite H, in_seq. lia.
Qed.

Lemma exists_first : forall l U, NoDup l -> (forall x, In x U -> In x l) -> U <> [] ->
  exists x, In x U /\ forall y, In y U -> ~ precedes l y x.
Proof.
  induction l as [|z l IHl]; intros U NDl HU NE.
  - destruct U as [|u U]; [congruence|]. exfalso. apply (HU u). left. reflexivity.
  - inversion NDl as [|? ? Hz NDl']; subst.
    destruct (in_dec Nat.eq_dec z U) as [I|I].
    + exists z. split; [exact I|]. intros y Hy P.
      destruct P as [l1 [l2 [l3 E]]]. destruct l1 as [|w l1]; simpl in E; inversion E; subst.
      * apply Hz. apply in_or_app. right. left. reflexivity.
      * apply Hz. apply in_or_app. right. right. apply in_or_app. right. left. reflexivity.
    + destruct (IHl U NDl') as [x [Hx Hm]].
      * intros x Hx. destruct (HU x Hx) as [->|H']; [contradiction|exact H'].
      * exact NE.
      * exists x. split; [exact Hx|]. intros y Hy P.
        destruct P as [l1 [l2 [l3 E]]]. destruct l1 as [|w l1]; simpl in E; inversion E; subst.
        -- contradiction.
        -- apply (Hm y Hy). exists l1, l2, l3. reflexivity.
Qed.

(** ** Acyclicity *)
Lemma topological_acyclic : forall E l, NoDup l -> topological E l -> acyclic E.
Proof.
  intros E l ND T v H.
  assert (P : forall a b, clos_trans nat E a b -> precedes l a b).
  { intros a b C. induction C as [a b C|a b c C1 IH1 C2 IH2].
    - apply T. exact C.
    - eapply precedes_trans; eassumption. }
  apply (precedes_irrefl l v ND). apply P. exact H.
Qed.

Lemma rank_acyclic : forall (E : graph) (r : nat -> nat),
  (forall a b, E a b -> r a < r b) -> acyclic E.
Proof.
  intros E r H v C.
  assert (P : forall a b, clos_trans nat E a b -> r a < r b).
  { intros a b D. induction D; [apply H; assumption|lia]. }
  specialize (P v v C). lia.
Qed.

(** ** Cycles in finite graphs *)
Lemma walk_app_inv : forall E l1 l2, walk E (l1 ++ l2) -> walk E l1 /\ walk E l2.
Proof.
  induction l1 as [|a l1 IH]; intros l2 H; [split; [exact I|exact H]|].
  destruct l1 as [|b l1].
  - simpl. split; [exact I|]. destruct l2; [exact I|]. simpl in H. tauto.
  - change (E a b /\ walk E ((b :: l1) ++ l2)) in H. destruct H as [H1 H2].
    destruct (IH l2 H2) as [H3 H4]. split; [|exact H4]. split; [exact H1|exact H3].
Qed.
Lemma walk_clos_trans : forall E a l b, walk E (a :: l ++ [b]) -> clos_trans nat E a b.
Proof.
  intros E a l. revert a. induction l as [|c l IH]; intros a b H.
  - simpl in H. apply t_step. tauto.
  - simpl in H. destruct H as [H1 H2]. eapply t_trans; [apply t_step; exact H1|].
    apply IH. destruct l; exact H2.
Qed.
Lemma clos_trans_walk : forall E a b, clos_trans nat E a b -> exists l, walk E (a :: l ++ [b]).
Proof.
  intros E a b H. apply clos_trans_t1n in H. induction H as [a b H|a c b H _ [l IH]].
  - exists []. simpl. tauto.
  - exists (c :: l). simpl. split; [exact H|]. destruct l; exact IH.
Qed.
Lemma not_NoDup_split : forall l : list nat, ~ NoDup l ->
  exists a l1 l2 l3, l = l1 ++ a :: l2 ++ a :: l3.
Proof.
  induction l as [|x l IH]; intro H.
  - exfalso. apply H. constructor.
  - destruct (in_dec Nat.eq_dec x l) as [I|I].
    + apply in_split in I. destruct I as [l2 [l3 ->]]. exists x, [], l2, l3. reflexivity.
    + destruct IH as [a [l1 [l2 [l3 ->]]]].
      * intro N. apply H. constructor; assumption.
      * exists a, (x :: l1), l2, l3. reflexivity.
Qed.
Lemma walk_repeat_cycle : forall E p, walk E p -> ~ NoDup p ->
  exists v, In v p /\ clos_trans nat E v v.
Proof.
  intros E p W ND. apply not_NoDup_split in ND. destruct ND as [a [l1 [l2 [l3 ->]]]].
  exists a. split; [apply in_or_app; right; left; reflexivity|].
  apply walk_app_inv in W. destruct W as [_ W].
  change (a :: l2 ++ a :: l3) with ((a :: l2) ++ a :: l3) in W.
  replace ((a :: l2) ++ a :: l3) with ((a :: l2 ++ [a]) ++ l3) in W
    by (simpl; rewrite <- app_assoc; reflexivity).
  apply walk_app_inv in W. destruct W as [W _].
  apply walk_clos_trans in W. exact W.
Qed.
Lemma no_source_cycle : forall (E : graph) U, U <> [] ->
  (forall x, In x U -> exists y, In y U /\ E y x) ->
  exists v, In v U /\ clos_trans nat E v v.
Proof.
  intros E U NE H.
  assert (C : forall k, exists p, length p = S k /\ incl p U /\ walk E p).
  { induction k as [|k [p [L [I W]]]].
    - destruct U as [|u U]; [congruence|]. exists [u]. split; [reflexivity|]. split.
      + intros x [<-|[]]. left. reflexivity.
      + exact Logic.I.
    - destruct p as [|a p]; [discriminate|].
      destruct (H a) as [y [Hy Ey]]; [apply I; left; reflexivity|].
      exists (y :: a :: p). split; [simpl in *; lia|]. split.
      + intros x [<-|Hx]; [exact Hy|apply I; exact Hx].
      + split; [exact Ey|exact W]. }
  destruct (C (length U)) as [p [L [I W]]].
  assert (ND : ~ NoDup p).
  { intro ND. apply (NoDup_incl_length ND) in I. lia. }
  destruct (walk_repeat_cycle E p W ND) as [v [Hv Cv]].
  exists v. split; [apply I; exact Hv|exact Cv].
Qed.

(** In an acyclic decidable graph every non-empty finite set has a source. *)
Lemma acyclic_source : forall (E : graph) U,
  (forall a b, {E a b} + {~ E a b}) -> acyclic E -> U <> [] ->
  exists x, In x U /\ forall y, In y U -> ~ E y x.
Proof.
  intros E U dec A NE.
  destruct (Exists_dec (fun x => Forall (fun y => ~ E y x) U) U) as [X|X].
  - intro x. apply Forall_dec. intro y. destruct (dec y x); [right|left]; tauto.
  - apply Exists_exists in X. destruct X as [x [Hx HF]]. exists x. split; [exact Hx|].
    rewrite Forall_forall in HF. exact HF.
  - exfalso. destruct (no_source_cycle E U NE) as [v [_ C]]; [|exact (A v C)].
    intros x Hx.
    destruct (Exists_dec (fun y => E y x) U) as [Y|Y]; [intro y; apply dec| |].
    + apply Exists_exists in Y. exact Y.
    + exfalso. apply X. apply Exists_exists. exists x. split; [exact Hx|].
      apply Forall_forall. intros y Hy HE. apply Y. apply Exists_exists. exists y. tauto.
Qed.

Lemma acyclic_sub : forall E E' : graph, (forall a b, E a b -> E' a b) -> acyclic E' -> acyclic E.
Proof.
  intros E E' H A v C. apply (A v).
  assert (G : forall a b, clos_trans nat E a b -> clos_trans nat E' a b).
  { intros a b D. induction D as [a b D|a b c D1 IH1 D2 IH2].
    - apply t_step, H. exact D.
    - eapply t_trans; eassumption. }
  apply G. exact C.
Qed.

(** Topological orders of decidable acyclic graphs on a finite set. *)
Lemma topo_exists_aux : forall (E : graph), (forall a b, {E a b} + {~ E a b}) -> acyclic E ->
  forall k U, length U = k -> NoDup U ->
  exists l, Permutation l U /\ forall a b, In a U -> In b U -> E a b -> precedes l a b.
Proof.
  intros E dec A. induction k as [|k IH]; intros U L ND.
  - destruct U; [|discriminate]. exists []. split; [constructor|]. intros a b [].
  - destruct (acyclic_source E U dec A) as [x [Hx Hs]]; [destruct U; [discriminate|congruence]|].
    assert (P := remove_nat_perm x U ND Hx).
    destruct (IH (remove_nat x U)) as [l [Pl Hl]].
    + apply remove_nat_length in Hx; [lia|exact ND].
    + apply remove_nat_NoDup. exact ND.
    + exists (x :: l). split.
      * eapply perm_trans; [apply perm_skip; exact Pl|apply Permutation_sym; exact P].
      * intros a b Ha Hb Hab.
        assert (b <> x) by (intro; subst; apply (Hs a Ha Hab)).
        destruct (Nat.eq_dec a x) as [->|D].
        -- assert (I : In b l).
           { apply (Permutation_in b (Permutation_sym Pl)). apply remove_nat_In. auto. }
           change (x :: l) with ([x] ++ l). apply precedes_app_cross; [left; reflexivity|exact I].
        -- change (x :: l) with ([x] ++ l). apply precedes_app_r. apply Hl; [| |exact Hab];
             apply remove_nat_In; auto.
Qed.
Lemma topo_exists : forall (E : graph) n, (forall a b, {E a b} + {~ E a b}) -> acyclic E ->
  exists l, is_order n l /\ forall a b, a < n -> b < n -> E a b -> precedes l a b.
Proof.
  intros E n dec A.
  destruct (topo_exists_aux E dec A n (seq 0 n) (seq_length _ _) (seq_NoDup _ _)) as [l [P H]].
  exists l. split; [exact P|]. intros a b Ha Hb. apply H; apply in_seq; lia.
Qed.

Lemma NoDup_app_iff' : forall A (l1 l2 : list A),
  NoDup (l1 ++ l2) <-> NoDup l1 /\ NoDup l2 /\ (forall x, In x l1 -> In x l2 -> False).
Proof.
  intros A l1 l2. induction l1 as [|a l1 IH]; simpl.
  - split; [intro H; repeat split; [constructor|exact H|tauto]|tauto].
  - rewrite !NoDup_cons_iff, IH, in_app_iff. split.
    + intros [H1 [H2 [H3 H4]]]. repeat split; try tauto.
      intros x [<-|Hx] Hx2; [tauto|]. apply (H4 x); assumption.
    + intros [[H1 H2] [H3 H4]]. repeat split; try tauto.
      * intros [H|H]; [tauto|]. apply (H4 a); [left; reflexivity|exact H].
      * intros x Hx Hx2. apply (H4 x); [right; exact Hx|exact Hx2].
Qed.
