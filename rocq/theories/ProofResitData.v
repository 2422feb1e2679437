(** * Independence, conditional means and additive noise in samples *)
From Coq Require Import Reals Arith List Lia Lra Permutation QArith Qcanon.
From Verif Require Import Prelude Spec Lib LibR SpecMeasure SpecResit ProofKernelMI.
Import ListNotations.
Open Scope R_scope.

Lemma independent_comp : forall {A B A' B'} n (u : nat -> A) (v : nat -> B) (f : A -> A') (g : B -> B') u' v', independent n u v ->
  (forall s, (s < n)%nat -> u' s = f (u s)) -> (forall s, (s < n)%nat -> v' s = g (v s)) -> independent n u' v'.
Proof.
  intros A B A' B' n u v f g u' v' I Eu Ev a b.
  rewrite (average_ext n _ (fun s => a (f (u s)) * b (g (v s)))) by (intros s Hs; rewrite Eu, Ev by exact Hs; reflexivity).
  rewrite (I (fun x => a (f x)) (fun y => b (g y))). f_equal; apply average_ext; intros s Hs; [rewrite Eu by exact Hs|rewrite Ev by exact Hs]; reflexivity.
Qed.
Lemma independent_sym : forall {A B} n (u : nat -> A) (v : nat -> B), independent n u v -> independent n v u.
Proof. intros A B n u v I f g. rewrite (average_ext n _ (fun s => g (u s) * f (v s))) by (intros; ring). rewrite I. ring. Qed.

Section Fubini.
  Context {A B : Type} (dec : forall a b : B, {a = b} + {a <> b}) (n : nat) (Hn : (0 < n)%nat) (u : nat -> A) (v : nat -> B).
  Let ind (a b : B) : R := if dec a b then 1 else 0.
  Let cnt (b : B) : R := rsum n (fun s => ind (v s) b).
  Lemma cnt_pos : forall t, (t < n)%nat -> 0 < cnt (v t).
  Proof.
    intros t Ht. unfold cnt. apply Rlt_le_trans with (ind (v t) (v t)).
    - unfold ind. destruct (dec (v t) (v t)); [lra|congruence].
    - apply (rsum_ge_one n (fun s => ind (v s) (v t)) t Ht). intros i _. unfold ind. destruct (dec _ _); lra.
  Qed.
  Lemma spread_over : forall (phi : B -> R) s, (s < n)%nat -> rsum n (fun t => ind (v s) (v t) * (phi (v t) / cnt (v t))) = phi (v s).
  Proof.
    intros phi s Hs. rewrite (rsum_ext n _ (fun t => phi (v s) / cnt (v s) * ind (v t) (v s))).
    - rewrite rsum_scal. fold (cnt (v s)). field. pose proof (cnt_pos s Hs). lra.
    - intros t Ht. unfold ind. destruct (dec (v s) (v t)) as [E|E], (dec (v t) (v s)) as [F|F]; try congruence; [rewrite F; ring|ring].
  Qed.
  Lemma fubini : independent n u v -> forall phi : A -> B -> R,
    average n (fun s => phi (u s) (v s)) = average n (fun t => average n (fun s => phi (u s) (v t))).
  Proof.
    intros I phi. assert (N : INR n <> 0) by (apply not_0_INR; lia).
    unfold average at 1. rewrite (rsum_ext n _ (fun s => rsum n (fun t => ind (v s) (v t) * (phi (u s) (v t) / cnt (v t))))).
    - rewrite rsum_swap. unfold average at 1. f_equal. apply rsum_ext. intros t Ht.
      pose proof (I (fun a => phi a (v t)) (fun b => ind b (v t))) as Q. cbv beta in Q. unfold average at 1 3 in Q. fold (cnt (v t)) in Q.
      rewrite (rsum_ext n _ (fun s => / cnt (v t) * (phi (u s) (v t) * ind (v s) (v t)))) by (intros; unfold Rdiv; ring).
      rewrite rsum_scal. apply (Rmult_eq_reg_r (cnt (v t) / INR n)).
      + rewrite <- Q. field. pose proof (cnt_pos t Ht). split; first [exact N|lra].
      + pose proof (cnt_pos t Ht). unfold Rdiv. apply Rmult_integral_contrapositive_currified; [lra|apply Rinv_neq_0_compat; exact N].
    - intros s Hs. symmetry. apply (spread_over (fun b => phi (u s) b) s Hs).
  Qed.
  (** Independence is decided by the frequencies of pairs of values. *)
  Lemma indicators_independent : (forall (f : A -> R) t, (t < n)%nat -> average n (fun s => f (u s) * ind (v s) (v t)) = average n (fun s => f (u s)) * average n (fun s => ind (v s) (v t))) -> independent n u v.
  Proof.
    intros H f g.
    assert (E : forall w : nat -> R, average n (fun s => w s * g (v s)) = rsum n (fun t => g (v t) / cnt (v t) * average n (fun s => w s * ind (v s) (v t)))).
    { intro w. unfold average. rewrite (rsum_ext n _ (fun s => rsum n (fun t => w s * (ind (v s) (v t) * (g (v t) / cnt (v t)))))) by (intros s Hs; rewrite rsum_scal, (spread_over g s Hs); reflexivity).
      rewrite rsum_swap. unfold Rdiv at 1. rewrite <- rsum_scal_r. apply rsum_ext. intros t Ht.
      rewrite (rsum_ext n _ (fun s => g (v t) / cnt (v t) * (w s * ind (v s) (v t)))) by (intros; ring). rewrite rsum_scal. unfold Rdiv. ring. }
    rewrite (E (fun s => f (u s))). rewrite (average_ext n (fun s => g (v s)) (fun s => 1 * g (v s))) by (intros; ring). rewrite (E (fun _ => 1)).
    rewrite <- rsum_scal. apply rsum_ext. intros t Ht. rewrite (H f t Ht).
    rewrite (average_ext n (fun s => 1 * ind (v s) (v t)) (fun s => ind (v s) (v t))) by (intros; ring). ring.
  Qed.
End Fubini.

Definition list_dec : forall a b : list R, {a = b} + {a <> b} := list_eq_dec Req_EM_T.
Lemma forall_dec : forall (P : nat -> Prop) n, (forall i, {P i} + {~ P i}) -> {forall i, (i < n)%nat -> P i} + {~ forall i, (i < n)%nat -> P i}.
Proof.
  intros P n D. induction n as [|n IH]; [left; lia|]. destruct IH as [IH|IH], (D n) as [Dn|Dn].
  - left. intros i Hi. destruct (Nat.eq_dec i n) as [->|]; [exact Dn|apply IH; lia].
  - right. intro H. apply Dn, H. lia.
  - right. intro H. apply IH. intros i Hi. apply H. lia.
  - right. intro H. apply Dn, H. lia.
Defined.
(** Whether a column and a block are independent in a sample can be decided. *)
Lemma independent_dec : forall n (u : nat -> R) (v : nat -> list R), (0 < n)%nat -> {independent n u v} + {~ independent n u v}.
Proof.
  intros n u v Hn.
  set (P := fun t r => average n (fun s => (if Req_EM_T (u s) (u r) then 1 else 0) * (if list_dec (v s) (v t) then 1 else 0)) =
    average n (fun s => if Req_EM_T (u s) (u r) then 1 else 0) * average n (fun s => if list_dec (v s) (v t) then 1 else 0)).
  destruct (forall_dec (fun t => forall r, (r < n)%nat -> P t r) n) as [H|H].
  - intro t. apply forall_dec. intro r. unfold P. apply Req_EM_T.
  - left. apply (indicators_independent list_dec n). intros f t Ht.
    assert (I : independent n (fun s => if list_dec (v s) (v t) then 1 else 0) u).
    { apply (indicators_independent Req_EM_T n). intros g r Hr. specialize (H t Ht r Hr). unfold P in H.
      (* a function of the indicator is affine in it *)
      set (a := fun s => if list_dec (v s) (v t) then 1 else 0) in *. set (b := fun s => if Req_EM_T (u s) (u r) then 1 else 0) in *.
      change (average n (fun s => g (a s) * b s) = average n (fun s => g (a s)) * average n (fun s => b s)).
      assert (G : forall s, g (a s) = g 0 + (g 1 - g 0) * a s) by (intro s; unfold a; destruct (list_dec _ _); ring).
      rewrite (average_ext n (fun s => g (a s) * b s) (fun s => g 0 * b s + (g 1 - g 0) * (b s * a s))) by (intros; rewrite G; ring).
      rewrite (average_ext n (fun s => g (a s)) (fun s => g 0 + (g 1 - g 0) * a s)) by (intros; apply G).
      rewrite !average_plus, !average_scal, average_const by exact Hn. change (average n (fun s => b s * a s) = average n b * average n a) in H. rewrite H.
      change (average n (fun s => b s)) with (average n b). change (average n (fun s => a s)) with (average n a). ring. }
    pose proof (I (fun x => x) f) as Q. cbv beta in Q. rewrite (average_ext n (fun s => f (u s) * _) (fun s => (if list_dec (v s) (v t) then 1 else 0) * f (u s))) by (intros; ring). rewrite Q. ring.
  - right. intro I. apply H. intros t Ht r Hr. exact (I (fun a => if Req_EM_T a (u r) then 1 else 0) (fun b => if list_dec b (v t) then 1 else 0)).
Defined.

(** ** Blocks of variables *)
Fixpoint position (j : nat) (M : list nat) : nat := match M with [] => 0%nat | x :: M => if (x =? j)%nat then 0%nat else S (position j M) end.
Definition pick (M L : list nat) (l : list R) : list R := map (fun j => nth (position j M) l 0) L.
Lemma pick_values : forall X M L s, incl L M -> pick M L (values X M s) = values X L s.
Proof.
  intros X M L s I. unfold pick, values. apply map_ext_in. intros j Hj. apply I in Hj. clear I. induction M as [|x M IH]; [destruct Hj|].
  cbn [position map]. destruct (x =? j)%nat eqn:E; [apply Nat.eqb_eq in E; subst; reflexivity|]. cbn [nth]. apply IH. destruct Hj as [->|Hj]; [rewrite Nat.eqb_refl in E; discriminate|exact Hj].
Qed.
Lemma all_but_In : forall i m j, In j (all_but i m) <-> (j < m)%nat /\ j <> i.
Proof.
  intros i m j. unfold all_but. rewrite filter_In, in_seq, Bool.negb_true_iff, Nat.eqb_neq. lia.
Qed.
Lemma blocks_independent : forall n m U Q L, (0 < n)%nat -> mutually_independent n m U -> NoDup Q -> (forall x, In x Q -> (x < m)%nat) -> (forall x, In x L -> (x < m)%nat) ->
  (forall x, In x Q -> ~ In x L) -> independent n (values U Q) (values U L).
Proof.
  intros n m U Q L Hn MI. induction Q as [|q Q IH]; intros ND RQ RL Dj f g.
  - unfold values at 1 3. cbn [map]. rewrite average_scal, average_const by exact Hn. reflexivity.
  - inversion ND as [|? ? Nq ND']; subst. assert (Hq : (q < m)%nat) by (apply RQ; left; reflexivity).
    set (M := all_but q m). assert (IQ : incl Q M). { intros x Hx. apply all_but_In. split; [apply RQ; right; exact Hx|intros ->; contradiction]. }
    assert (IL : incl L M). { intros x Hx. apply all_but_In. split; [apply RL; exact Hx|intros ->; apply (Dj q); [left; reflexivity|exact Hx]]. }
    assert (Fb := fubini list_dec n Hn _ _ (MI q Hq)). fold M in Fb. set (F := fun l => average n (fun s => f (U q s :: l))).
    assert (E1 : average n (fun s => f (values U (q :: Q) s) * g (values U L s)) = average n (fun t => F (values U Q t) * g (values U L t))).
    { rewrite (average_ext n _ (fun s => f (U q s :: pick M Q (values U M s)) * g (pick M L (values U M s)))) by (intros; rewrite !pick_values by assumption; reflexivity).
      rewrite (Fb (fun a w => f (a :: pick M Q w) * g (pick M L w))). apply average_ext. intros t Ht. rewrite !pick_values by assumption. unfold F.
      rewrite (average_ext n _ (fun s => g (values U L t) * f (U q s :: values U Q t))) by (intros; ring). rewrite average_scal. ring. }
    assert (E2 : average n (fun s => f (values U (q :: Q) s)) = average n (fun t => F (values U Q t))).
    { rewrite (average_ext n _ (fun s => f (U q s :: pick M Q (values U M s)))) by (intros; rewrite !pick_values by assumption; reflexivity).
      rewrite (Fb (fun a w => f (a :: pick M Q w))). apply average_ext. intros t Ht. rewrite !pick_values by assumption. reflexivity. }
    rewrite E1, E2. apply IH; [exact ND'|intros x Hx; apply RQ; right; exact Hx|exact RL|intros x Hx; apply Dj; right; exact Hx].
Qed.

(** ** Conditional means *)
Lemma conditional_mean_unique : forall {B} n (v : nat -> B) y h h', (0 < n)%nat -> conditional_mean n v y h -> conditional_mean n v y h' ->
  forall s, (s < n)%nat -> h (v s) = h' (v s).
Proof.
  intros B n v y h h' Hn C C' s Hs. pose proof (C (fun w => h' w - h w)) as A. pose proof (C' (fun w => h' w - h w)) as A'. cbv beta in A, A'.
  assert (Z : average n (fun s => (h' (v s) - h (v s)) ^ 2) = 0).
  { rewrite (average_ext n _ (fun s => (y s - h (v s)) * (h' (v s) - h (v s)) + - (1) * ((y s - h' (v s)) * (h' (v s) - h (v s))))) by (intros; ring).
    rewrite average_plus, average_scal, A, A'. ring. }
  assert (N : INR n <> 0) by (apply not_0_INR; lia).
  assert (Z' : rsum n (fun s => (h' (v s) - h (v s)) ^ 2) = 0). { unfold average in Z. apply (Rmult_eq_reg_r (/ INR n)); [|apply Rinv_neq_0_compat; exact N]. unfold Rdiv in Z. rewrite Z. ring. }
  pose proof (rsum_zero_all n _ (fun i _ => pow2_ge_0 _) Z' s Hs) as W. cbv beta in W. assert (h' (v s) - h (v s) = 0) by (destruct (Req_dec (h' (v s) - h (v s)) 0) as [|K]; [assumption|exfalso; exact (pow_nonzero _ 2 K W)]). lra.
Qed.
Lemma additive_residual : forall {B} n (v : nat -> B) y e h (f : B -> R), (0 < n)%nat -> (forall s, (s < n)%nat -> y s = f (v s) + e s) -> independent n e v ->
  conditional_mean n v y h -> forall s, (s < n)%nat -> y s - h (v s) = e s - average n e.
Proof.
  intros B n v y e h f Hn E I C s Hs.
  assert (C' : conditional_mean n v y (fun w => f w + average n e)).
  { intro g. rewrite (average_ext n _ (fun s => e s * g (v s) + - average n e * g (v s))) by (intros t Ht; rewrite (E t Ht); ring).
    rewrite average_plus, average_scal. pose proof (I (fun x => x) g) as Q. cbv beta in Q. rewrite Q. change (average n (fun s => e s)) with (average n e). ring. }
  pose proof (conditional_mean_unique n v y _ _ Hn C C' s Hs) as U. cbv beta in U. rewrite U, (E s Hs). ring.
Qed.
Lemma additive_residual_independent : forall {B} n (v : nat -> B) y e h (f : B -> R), (0 < n)%nat -> (forall s, (s < n)%nat -> y s = f (v s) + e s) -> independent n e v ->
  conditional_mean n v y h -> independent n (fun s => y s - h (v s)) v.
Proof.
  intros B n v y e h f Hn E I C. apply (independent_comp n e v (fun x => x - average n e) (fun w => w)); [exact I| |reflexivity].
  intros s Hs. apply (additive_residual n v y e h f Hn E I C s Hs).
Qed.

(** ** Additive noise models *)
Lemma values_from : forall n X C (w : nat -> list R), (forall j, In j C -> exists h : list R -> R, forall s, (s < n)%nat -> X j s = h (w s)) ->
  exists H : list R -> list R, forall s, (s < n)%nat -> values X C s = H (w s).
Proof.
  intros n X C w. induction C as [|j C IH]; intro Hj; [exists (fun _ => []); reflexivity|].
  destruct (Hj j (or_introl eq_refl)) as (h & Eh). destruct IH as (H & EH); [intros i Hi; apply Hj; right; exact Hi|].
  exists (fun l => h l :: H l). intros s Hs. unfold values in *. cbn [map]. rewrite (Eh s Hs), (EH s Hs). reflexivity.
Qed.
Section Model.
  Context (n p : nat) (causes : nat -> list nat) (f : nat -> list R -> R) (E X : nat -> nat -> R) (L : list nat).
  Context (Hn : (0 < n)%nat) (M : additive_noise_model n p causes f E X) (HL : is_order p L) (HT : topological (cause_graph p causes) L).
  Lemma others_from_noise : forall U k, closed (cause_graph p causes) U -> (forall x, In x U -> (x < p)%nat) -> sink_in (cause_graph p causes) U k ->
    forall j, In j U -> j <> k -> exists h, forall s, (s < n)%nat -> X j s = h (values E (all_but k p) s).
  Proof.
    intros U k Cl Rg Sk.
    assert (G : forall l1 l2, L = l1 ++ l2 -> forall j, In j l1 -> In j U -> j <> k -> exists h, forall s, (s < n)%nat -> X j s = h (values E (all_but k p) s)).
    { induction l1 as [|x l1 IH] using rev_ind; intros l2 EL j Hj HU Nk; [destruct Hj|].
      rewrite <- app_assoc in EL. cbn [app] in EL. apply in_app_or in Hj. destruct Hj as [Hj|[<-|[]]]; [apply (IH _ EL); assumption|].
      destruct (values_from n X (causes x) (fun s => values E (all_but k p) s)) as (H & EH).
      - intros a Ha. assert (Ga : cause_graph p causes a x) by (split; [apply Rg; exact HU|exact Ha]). apply (IH _ EL).
        + destruct (HT _ _ Ga) as (m1 & m2 & m3 & EM). pose proof (is_order_NoDup _ _ HL) as ND. rewrite EL in ND, EM.
          assert (S : l1 = m1 ++ a :: m2).
          { clear - ND EM. replace (m1 ++ a :: m2 ++ x :: m3) with ((m1 ++ a :: m2) ++ x :: m3) in EM by (rewrite <- app_assoc; reflexivity). set (q := m1 ++ a :: m2) in *. clearbody q. clear m1 m2 a. revert q EM ND.
            induction l1 as [|y l1 IH]; intros [|z q] EM ND; cbn in EM; injection EM; intros; subst; try reflexivity.
            - exfalso. inversion ND as [|? ? W _]; subst. apply W. apply in_or_app. right. left. reflexivity.
            - exfalso. inversion ND as [|? ? W _]; subst. apply W. apply in_or_app. right. left. reflexivity.
            - f_equal. apply IH; [assumption|]. inversion ND; assumption. }
          rewrite S. apply in_or_app. right. left. reflexivity.
        + eapply Cl; eassumption.
        + intros ->. exact (Sk x HU Ga).
      - exists (fun w => f x (H w) + nth 0 (pick (all_but k p) [x] w) 0). intros s Hs. rewrite pick_values.
        + unfold values at 2. cbn [map nth]. rewrite <- (EH s Hs). apply (proj2 M); [apply Rg; exact HU|exact Hs].
        + intros y [<-|[]]. apply all_but_In. split; [apply Rg; exact HU|exact Nk]. }
    intros j Hj Nk. apply (G L []); [symmetry; apply app_nil_r| |exact Hj|exact Nk]. apply (is_order_In p L HL). apply Rg. exact Hj.
  Qed.
  Lemma self_free : forall k, (k < p)%nat -> ~ In k (causes k).
  Proof.
    intros k Hk C. destruct (HT k k (conj Hk C)) as (m1 & m2 & m3 & EM). pose proof (is_order_NoDup _ _ HL) as N. rewrite EM in N.
    apply NoDup_app_iff' in N. destruct N as (_ & N & _). inversion N as [|? ? W _]; subst. apply W. apply in_or_app. right. left. reflexivity.
  Qed.
  Lemma sink_residual : forall U k h, closed (cause_graph p causes) U -> (forall x, In x U -> (x < p)%nat) -> In k U -> sink_in (cause_graph p causes) U k ->
    conditional_mean n (values X (remove_nat k U)) (X k) h -> independent n (residual_of X (remove_nat k U) k h) (values X (remove_nat k U)).
  Proof.
    intros U k h Cl Rg Hk Sk C. assert (Pk := Rg k Hk). unfold residual_of.
    apply (additive_residual_independent n (values X (remove_nat k U)) (X k) (E k) h (fun w => f k (pick (remove_nat k U) (causes k) w)) Hn).
    - intros s Hs. rewrite pick_values; [apply (proj2 M); assumption|]. intros a Ha. apply remove_nat_In. split; [apply (Cl a k); [split; assumption|exact Hk]|]. intros ->. exact (self_free k Pk Ha).
    - destruct (values_from n X (remove_nat k U) (fun s => values E (all_but k p) s)) as (H & EH).
      + intros j Hj. apply remove_nat_In in Hj. destruct Hj as [Hj Nj]. apply (others_from_noise U k Cl Rg Sk j Hj Nj).
      + apply (independent_comp n (E k) (values E (all_but k p)) (fun x => x) H); [apply (proj1 M); exact Pk|reflexivity|exact EH].
    - exact C.
  Qed.
End Model.
