(** * Proofs about LiM: the acyclicity function, the optimisation loop and the local search. *)
From Coq Require Import List ListDec Arith Lia Bool ZArith QArith Qcanon Qround Permutation Relations.
From Verif Require Import Prelude Spec Lib LibMat ModelLim.
Import ListNotations.
Open Scope nat_scope.

(** ** Order facts on Qc *)
Lemma Qcmult_nonneg : forall a b, (0 <= a)%Qc -> (0 <= b)%Qc -> (0 <= a * b)%Qc.
Proof. intros a b Ha Hb. replace 0%Qc with (0 * b)%Qc by ring. apply Qcmult_le_compat_r; assumption. Qed.
Lemma Qcmult_pos : forall a b, (0 < a)%Qc -> (0 < b)%Qc -> (0 < a * b)%Qc.
Proof. intros a b Ha Hb. replace 0%Qc with (0 * b)%Qc by ring. apply Qcmult_lt_compat_r; assumption. Qed.
Lemma Qcplus_nonneg : forall a b, (0 <= a)%Qc -> (0 <= b)%Qc -> (0 <= a + b)%Qc.
Proof. intros a b Ha Hb. replace 0%Qc with (0 + 0)%Qc by ring. apply Qcplus_le_compat; assumption. Qed.
Lemma Qcsquare_nonneg : forall a, (0 <= a * a)%Qc.
Proof.
  intro a. destruct (Qclt_le_dec a 0) as [H|H].
  - replace (a * a)%Qc with ((- a) * (- a))%Qc by ring.
    assert (0 <= - a)%Qc by (apply Qcopp_le_compat in H || (apply Qclt_le_weak in H; apply Qcopp_le_compat in H); exact H).
    apply Qcmult_nonneg; assumption.
  - apply Qcmult_nonneg; assumption.
Qed.
Lemma Qcsquare_zero : forall a, (a * a = 0)%Qc -> a = 0%Qc.
Proof. intros a H. apply Qcmult_integral in H. destruct H; assumption. Qed.
Lemma sumn_nonneg : forall n f, (forall k, k < n -> (0 <= f k)%Qc) -> (0 <= sumn n f)%Qc.
Proof.
  induction n as [|n IH]; intros f H; [apply Qcle_refl|]. rewrite sumn_S. apply Qcplus_nonneg; [apply IH; intros; apply H; lia|apply H; lia].
Qed.
Lemma sumn_le : forall n f g, (forall k, k < n -> (f k <= g k)%Qc) -> (sumn n f <= sumn n g)%Qc.
Proof.
  induction n as [|n IH]; intros f g H; [apply Qcle_refl|]. rewrite !sumn_S. apply Qcplus_le_compat; [apply IH; intros; apply H; lia|apply H; lia].
Qed.
Lemma sumn_ge_term : forall n f k, k < n -> (forall j, j < n -> (0 <= f j)%Qc) -> (f k <= sumn n f)%Qc.
Proof.
  induction n as [|n IH]; intros f k Hk H; [lia|]. rewrite sumn_S. destruct (Nat.eq_dec k n) as [->|N].
  - replace (f n) with (0 + f n)%Qc at 1 by ring. apply Qcplus_le_compat; [apply sumn_nonneg; intros; apply H; lia|apply Qcle_refl].
  - replace (f k) with (f k + 0)%Qc by ring. apply Qcplus_le_compat; [apply IH; [lia|intros; apply H; lia]|apply H; lia].
Qed.

(** ** Powers of I + N for a non-negative N *)
Section Pow.
  Variable n : nat.
  Variable N : mat Qc.
  Hypothesis Npos : forall i j, i < n -> j < n -> (0 <= N i j)%Qc.
  Let M := madd midn N.

  Lemma mpow_nonneg : forall A, (forall i j, i < n -> j < n -> (0 <= A i j)%Qc) ->
    forall k i j, i < n -> j < n -> (0 <= mpow n A k i j)%Qc.
  Proof.
    intros A HA. induction k as [|k IH]; intros i j Hi Hj; cbn [mpow].
    - unfold midn. destruct (i =? j); discriminate.
    - unfold mmul. apply sumn_nonneg. intros q Hq. apply Qcmult_nonneg; [apply HA|apply IH]; assumption.
  Qed.
  Lemma M_nonneg : forall i j, i < n -> j < n -> (0 <= M i j)%Qc.
  Proof.
    intros i j Hi Hj. unfold M, madd. apply Qcplus_nonneg; [unfold midn; destruct (i =? j); discriminate|apply Npos; assumption].
  Qed.
  Lemma M_S : forall k i j, i < n -> j < n -> mpow n M (S k) i j = (mpow n M k i j + mmul n N (mpow n M k) i j)%Qc.
  Proof.
    intros k i j Hi Hj. cbn [mpow]. unfold M at 1. rewrite mmul_madd_l. rewrite mmul_id_l by exact Hi. reflexivity.
  Qed.
  Lemma M_mono : forall k m i j, k <= m -> i < n -> j < n -> (mpow n M k i j <= mpow n M m i j)%Qc.
  Proof.
    intros k m i j Hk Hi Hj. induction Hk as [|m Hk IH]; [apply Qcle_refl|]. eapply Qcle_trans; [exact IH|].
    rewrite M_S by assumption. replace (mpow n M m i j) with (mpow n M m i j + 0)%Qc at 1 by ring.
    apply Qcplus_le_compat; [apply Qcle_refl|]. unfold mmul. apply sumn_nonneg. intros q Hq.
    apply Qcmult_nonneg; [apply Npos; assumption|]. apply mpow_nonneg; [exact M_nonneg|assumption|assumption].
  Qed.
  Lemma M_lower : forall k i j, i < n -> j < n -> (midn i j + mpow n N (S k) i j <= mpow n M (S k) i j)%Qc.
  Proof.
    induction k as [|k IH]; intros i j Hi Hj.
    - rewrite M_S by assumption. cbn [mpow]. apply Qcle_refl.
    - rewrite M_S by assumption. apply Qcplus_le_compat.
      + change (midn i j) with (mpow n M 0 i j). apply M_mono; [lia|assumption|assumption].
      + cbn [mpow]. unfold mmul at 1 3. apply sumn_le. intros q Hq.
        assert (B : (mpow n N (S k) q j <= mpow n M (S k) q j)%Qc).
        { eapply Qcle_trans; [|apply IH; assumption]. replace (mpow n N (S k) q j) with (0 + mpow n N (S k) q j)%Qc at 1 by ring.
          apply Qcplus_le_compat; [unfold midn; destruct (q =? j); discriminate|apply Qcle_refl]. }
        cbn [mpow] in B. rewrite (Qcmult_comm (N i q)), (Qcmult_comm (N i q)). apply Qcmult_le_compat_r; [exact B|apply Npos; assumption].
  Qed.
  Lemma M_diag_ge1 : forall k i, i < n -> (1 <= mpow n M k i i)%Qc.
  Proof.
    intros k i Hi. replace 1%Qc with (mpow n M 0 i i) by (cbn; unfold midn; rewrite Nat.eqb_refl; reflexivity).
    apply M_mono; [lia|assumption|assumption].
  Qed.
  (** Along a walk of N the power is at least [t^k] when every weight is at least [t]. *)
  Lemma walk_pow_ge : forall t l a b, (0 <= t)%Qc -> (forall i j, i < n -> j < n -> N i j <> 0%Qc -> (t <= N i j)%Qc) ->
    a < n -> b < n -> walk (edge_of n N) (a :: l ++ [b]) -> (qprod (repeat t (S (length l))) <= mpow n N (S (length l)) b a)%Qc.
  Proof.
    intros t l a b Ht HN. revert a. induction l as [|c l IH]; intros a Ha Hb W.
    - cbn [app length] in *. destruct W as [(_ & _ & E) _]. cbn [mpow repeat qprod fold_right].
      rewrite mmul_id_r by exact Ha. replace (t * 1)%Qc with t by ring. apply HN; assumption.
    - cbn [app length] in *. destruct W as [E W]. destruct E as (Hc & _ & E).
      specialize (IH c Hc Hb W). rewrite mpow_S_r by assumption. unfold mmul.
      eapply Qcle_trans; [|apply (sumn_ge_term n (fun k => mpow n N (S (length l)) b k * N k a)%Qc c Hc)].
      + cbn [repeat]. unfold qprod. cbn [fold_right]. fold (qprod (repeat t (S (length l)))).
        change (t * fold_right Qcmult 1%Qc (repeat t (length l)))%Qc with (qprod (repeat t (S (length l)))).
        eapply Qcle_trans.
        * rewrite Qcmult_comm. apply Qcmult_le_compat_r; [exact IH|exact Ht].
        * rewrite (Qcmult_comm _ t), (Qcmult_comm _ (N c a)). apply Qcmult_le_compat_r; [apply HN; assumption|].
          apply mpow_nonneg; assumption.
      + intros j Hj. apply Qcmult_nonneg; [apply mpow_nonneg; assumption|apply Npos; assumption].
  Qed.
  Lemma walk_pow_pos : forall l a b, a < n -> b < n -> walk (edge_of n N) (a :: l ++ [b]) -> (0 < mpow n N (S (length l)) b a)%Qc.
  Proof.
    intros l. induction l as [|c l IH]; intros a b Ha Hb W.
    - cbn [app length] in *. destruct W as [(_ & _ & E) _]. cbn [mpow].
      rewrite mmul_id_r by exact Ha. destruct (Qcle_lt_or_eq _ _ (Npos b a Hb Ha)); [assumption|congruence].
    - cbn [app length] in *. destruct W as [E W]. destruct E as (Hc & _ & E).
      specialize (IH c b Hc Hb W). rewrite mpow_S_r by assumption. unfold mmul.
      eapply Qclt_le_trans; [|apply (sumn_ge_term n (fun k => mpow n N (S (length l)) b k * N k a)%Qc c Hc)].
      + apply Qcmult_pos; [exact IH|]. destruct (Qcle_lt_or_eq _ _ (Npos c a Hc Ha)); [assumption|congruence].
      + intros j Hj. apply Qcmult_nonneg; [apply mpow_nonneg; assumption|apply Npos; assumption].
  Qed.
End Pow.

(** A cycle contains a cycle without repeated node. *)
Lemma short_cycle : forall E v, clos_trans nat E v v -> exists w l, walk E (w :: l ++ [w]) /\ NoDup (w :: l).
Proof.
  intros E v C. apply clos_trans_walk in C. destruct C as [l W]. remember (length l) as k eqn:Hk. revert v l Hk W.
  induction k as [k IH] using (well_founded_induction lt_wf). intros v l -> W.
  destruct (NoDup_dec Nat.eq_dec (v :: l)) as [ND|ND]; [exists v, l; split; assumption|].
  apply not_NoDup_split in ND. destruct ND as (a & l1 & l2 & l3 & E1).
  assert (W' : walk E (a :: l2 ++ [a])).
  { change (v :: l ++ [v]) with ((v :: l) ++ [v]) in W. rewrite E1 in W. rewrite <- app_assoc in W. apply walk_app_inv in W. destruct W as [_ W].
    replace ((a :: l2 ++ a :: l3) ++ [v]) with ((a :: l2 ++ [a]) ++ (l3 ++ [v])) in W by (cbn; rewrite <- !app_assoc; reflexivity).
    apply walk_app_inv in W. apply W. }
  apply (IH (length l2)) with (v := a) (l := l2); [|reflexivity|exact W'].
  apply (f_equal (@length nat)) in E1. cbn [length] in E1. rewrite app_length in E1. cbn [length] in E1. rewrite app_length in E1. cbn [length] in E1. lia.
Qed.

(** ** The acyclicity function *)
Definition h_N (d : nat) (W : mat Qc) : mat Qc := fun i j => (W i j * W i j / qn d)%Qc.
Lemma qn_pos : forall d, 1 <= d -> (0 < qn d)%Qc.
Proof.
  intros d H. unfold Qclt. setoid_replace (this (qn d)) with (inject_Z (Z.of_nat d)) by apply Qred_correct.
  unfold Qlt. cbn. lia.
Qed.
Lemma qn_S : forall d, qn (S d) = (qn d + 1)%Qc.
Proof.
  intro d. apply Qc_is_canon. setoid_replace (this (qn (S d))) with (inject_Z (Z.of_nat (S d))) by apply Qred_correct.
  unfold Qcplus. setoid_replace (this (Q2Qc (this (qn d) + this 1%Qc))) with (this (qn d) + this 1%Qc)%Q by apply Qred_correct.
  setoid_replace (this (qn d)) with (inject_Z (Z.of_nat d)) by apply Qred_correct. unfold Qeq. cbn. lia.
Qed.
Lemma sumn_one : forall d, sumn d (fun _ => 1%Qc) = qn d.
Proof. induction d as [|d IH]; [apply Qc_is_canon; reflexivity|]. rewrite sumn_S, IH, qn_S. reflexivity. Qed.
Lemma h_trace : forall d W, 1 <= d -> h_of d W = (sumn d (fun i => mpow d (madd midn (h_N d W)) d i i) - qn d)%Qc.
Proof.
  intros d W Hd. unfold h_of. f_equal. apply sumn_ext. intros i Hi. destruct d as [|d]; [lia|]. cbn [Nat.sub]. rewrite Nat.sub_0_r.
  cbn [mpow]. unfold mmul at 1. apply sumn_ext. intros j Hj. rewrite Qcmult_comm. reflexivity.
Qed.
Lemma Qcdiv_nonneg : forall a b, (0 <= a)%Qc -> (0 < b)%Qc -> (0 <= a / b)%Qc.
Proof.
  intros a b Ha Hb. unfold Qcdiv. apply Qcmult_nonneg; [exact Ha|].
  destruct (Qclt_le_dec (/ b) 0) as [H|H]; [|exact H]. exfalso.
  assert (X : (/ b * b < 0 * b)%Qc) by (apply Qcmult_lt_compat_r; assumption).
  rewrite Qcmult_inv_l in X by (intro E; subst b; discriminate). replace (0 * b)%Qc with 0%Qc in X by ring. discriminate.
Qed.
Lemma h_N_nonneg : forall d W, 1 <= d -> forall i j, i < d -> j < d -> (0 <= h_N d W i j)%Qc.
Proof. intros d W Hd i j _ _. unfold h_N. apply Qcdiv_nonneg; [apply Qcsquare_nonneg|apply qn_pos; exact Hd]. Qed.
Lemma h_N_zero : forall d W i j, 1 <= d -> (h_N d W i j = 0%Qc <-> W i j = 0%Qc).
Proof.
  intros d W i j Hd. unfold h_N. pose proof (qn_pos d Hd) as P.
  assert (NZ : qn d <> 0%Qc) by (intro E; rewrite E in P; discriminate). split; intro H.
  - apply Qcsquare_zero.
    assert (E : (W i j * W i j = W i j * W i j / qn d * qn d)%Qc) by (field; exact NZ). rewrite E, H. ring.
  - rewrite H. field. exact NZ.
Qed.
Lemma h_N_edge : forall d W a b, 1 <= d -> (edge_of d (h_N d W) a b <-> edge_of d W a b).
Proof. intros d W a b Hd. unfold edge_of. rewrite h_N_zero by exact Hd. reflexivity. Qed.
Lemma h_nonneg : forall d W, 1 <= d -> (0 <= h_of d W)%Qc.
Proof.
  intros d W Hd. rewrite h_trace by exact Hd.
  assert (A : (qn d <= sumn d (fun i => mpow d (madd midn (h_N d W)) d i i))%Qc).
  { rewrite <- sumn_one. apply sumn_le. intros i Hi. apply M_diag_ge1; [apply h_N_nonneg; exact Hd|exact Hi]. }
  apply Qcle_minus_iff in A. exact A.
Qed.
Lemma acyclic_M : forall d W m, acyclic (edge_of d W) -> 1 <= d ->
  (forall i j, i < d -> j < d -> mpow d (madd midn (h_N d W)) m i j <> 0%Qc -> i = j \/ clos_trans nat (edge_of d W) j i) /\
  (forall i, i < d -> mpow d (madd midn (h_N d W)) m i i = 1%Qc).
Proof.
  intros d W m HA Hd. set (M := madd midn (h_N d W)).
  assert (MD : forall i, i < d -> M i i = 1%Qc).
  { intros i Hi. unfold M, madd, midn. rewrite Nat.eqb_refl. assert (h_N d W i i = 0%Qc).
    { apply h_N_zero; [exact Hd|]. destruct (Qc_eq_dec (W i i) 0%Qc) as [E|E]; [exact E|]. exfalso.
      apply (HA i). apply t_step. split; [exact Hi|]. split; [exact Hi|exact E]. }
    rewrite H. ring. }
  assert (ME : forall i j, i < d -> j < d -> i <> j -> M i j <> 0%Qc -> edge_of d W j i).
  { intros i j Hi Hj N E. apply h_N_edge; [exact Hd|]. split; [exact Hi|]. split; [exact Hj|]. intro Z. apply E.
    unfold M, madd, midn. destruct (Nat.eqb_spec i j); [contradiction|]. rewrite Z. ring. }
  assert (G : forall i j, i < d -> j < d -> forall k, k < d -> (forall a b, a < d -> b < d -> mpow d M m a b <> 0%Qc -> a = b \/ clos_trans nat (edge_of d W) b a) ->
     (M i k * mpow d M m k j)%Qc <> 0%Qc -> (i = k \/ edge_of d W k i) /\ (k = j \/ clos_trans nat (edge_of d W) j k)).
  { intros i j Hi Hj k Hk IH N. split.
    - destruct (Nat.eq_dec i k) as [E|E]; [left; exact E|right]. apply ME; try assumption. intro Z. apply N. rewrite Z. ring.
    - apply IH; try assumption. intro Z. apply N. rewrite Z. ring. }
  clearbody M. revert G. induction m as [|m IH]; intro G.
  - split; [|intros i Hi; cbn; unfold midn; rewrite Nat.eqb_refl; reflexivity].
    intros i j Hi Hj N. cbn [mpow] in N. unfold midn in N. destruct (Nat.eqb_spec i j); [left; assumption|congruence].
  - assert (G' : forall i j, i < d -> j < d -> forall k, k < d -> (forall a b, a < d -> b < d -> mpow d M m a b <> 0%Qc -> a = b \/ clos_trans nat (edge_of d W) b a) ->
     (M i k * mpow d M m k j)%Qc <> 0%Qc -> (i = k \/ edge_of d W k i) /\ (k = j \/ clos_trans nat (edge_of d W) j k)).
    { intros i j Hi Hj k Hk IH' N. split.
      - destruct (Nat.eq_dec i k) as [E|E]; [left; exact E|right]. apply ME; try assumption. intro Z. apply N. rewrite Z. ring.
      - apply IH'; try assumption. intro Z. apply N. rewrite Z. ring. }
    destruct (IH G') as [IH1 IH2]. split.
    + intros i j Hi Hj N. cbn [mpow] in N. unfold mmul in N.
      destruct (Nat.eq_dec i j) as [E|E]; [left; exact E|right].
      assert (X : exists k, k < d /\ (M i k * mpow d M m k j)%Qc <> 0%Qc).
      { clear - N. induction d as [|d' IHd]; [exfalso; apply N; reflexivity|].
        destruct (Qc_eq_dec (M i d' * mpow (S d') M m d' j)%Qc 0%Qc) as [Z|Z]; [|exists d'; split; [lia|exact Z]].
        assert (Q : sumn d' (fun k => M i k * mpow (S d') M m k j)%Qc <> 0%Qc).
        { intro Q. apply N. rewrite sumn_S, Q, Z. ring. }
        clear - Q. assert (X : forall q, q <= S d' -> sumn q (fun k => M i k * mpow (S d') M m k j)%Qc <> 0%Qc -> exists k, k < S d' /\ (M i k * mpow (S d') M m k j)%Qc <> 0%Qc).
        { induction q as [|q IHq]; intros Hq Hs; [exfalso; apply Hs; reflexivity|]. rewrite sumn_S in Hs.
          destruct (Qc_eq_dec (M i q * mpow (S d') M m q j)%Qc 0%Qc) as [Z|Z]; [|exists q; split; [lia|exact Z]].
          apply IHq; [lia|]. intro Q'. apply Hs. rewrite Q', Z. ring. }
        apply (X d'); [lia|exact Q]. }
      destruct X as [k [Hk Nk]]. destruct (G' i j Hi Hj k Hk IH1 Nk) as [[->|E1] [E2|E2]].
      * contradiction.
      * exact E2.
      * subst k. apply t_step. exact E1.
      * eapply t_trans; [exact E2|apply t_step; exact E1].
    + intros i Hi. cbn [mpow]. unfold mmul. rewrite (sumn_single d _ i); [rewrite (MD i Hi), (IH2 i Hi); ring|exact Hi|].
      intros k Hk Nk. destruct (Qc_eq_dec (M i k * mpow d M m k i)%Qc 0%Qc) as [Z|Z]; [exact Z|exfalso].
      destruct (G' i i Hi Hi k Hk IH1 Z) as [[E1|E1] [E2|E2]]; try congruence.
      apply (HA i). eapply t_trans; [exact E2|apply t_step; exact E1].
Qed.
Lemma h_acyclic : forall d W, 1 <= d -> acyclic (edge_of d W) -> h_of d W = 0%Qc.
Proof.
  intros d W Hd HA. rewrite h_trace by exact Hd. rewrite (sumn_ext d _ (fun _ => 1%Qc)); [rewrite sumn_one; ring|].
  intros i Hi. apply (acyclic_M d W d HA Hd). exact Hi.
Qed.
(** A cycle gives a lower bound. *)
Lemma h_cycle : forall d W t v, 1 <= d -> (0 <= t)%Qc ->
  (forall i j, i < d -> j < d -> W i j <> 0%Qc -> (t <= h_N d W i j)%Qc) ->
  clos_trans nat (edge_of d W) v v ->
  exists k, 1 <= k /\ k <= d /\ (qprod (repeat t k) <= h_of d W)%Qc /\ (0 < h_of d W)%Qc.
Proof.
  intros d W t v Hd Ht HN C.
  destruct (short_cycle (edge_of d W) v C) as (w & l & Wk & ND).
  assert (Wk' : walk (edge_of d (h_N d W)) (w :: l ++ [w])) by (eapply walk_mono; [|exact Wk]; intros a b; apply h_N_edge; exact Hd).
  assert (B : forall x, In x (w :: l) -> x < d).
  { intros x Hx. apply (walk_edge_bound d W (w :: l ++ [w]) Wk); [cbn; rewrite app_length; cbn; lia|].
    destruct Hx as [->|Hx]; [left; reflexivity|right; apply in_or_app; left; exact Hx]. }
  pose proof (NoDup_bounded d (w :: l) ND B) as Lk. cbn [length] in Lk.
  assert (Hw : w < d) by (apply B; left; reflexivity).
  exists (S (length l)). split; [lia|]. split; [exact Lk|].
  assert (D : (mpow d (h_N d W) (S (length l)) w w <= h_of d W)%Qc).
  { rewrite h_trace by exact Hd. set (M := madd midn (h_N d W)).
    assert (A : (sumn d (fun i => if i =? w then 1 + mpow d (h_N d W) (S (length l)) w w else 1)%Qc <= sumn d (fun i => mpow d M d i i))%Qc).
    { apply sumn_le. intros i Hi. destruct (Nat.eqb_spec i w) as [->|].
      - eapply Qcle_trans; [|apply (M_mono d (h_N d W) (h_N_nonneg d W Hd) (S (length l)) d w w); assumption].
        pose proof (M_lower d (h_N d W) (h_N_nonneg d W Hd) (length l) w w Hw Hw) as L. unfold midn in L at 1. rewrite Nat.eqb_refl in L. exact L.
      - apply M_diag_ge1; [apply h_N_nonneg; exact Hd|exact Hi]. }
    assert (S1 : sumn d (fun i => if i =? w then 1 + mpow d (h_N d W) (S (length l)) w w else 1)%Qc = (qn d + mpow d (h_N d W) (S (length l)) w w)%Qc).
    { rewrite (sumn_ext d _ (fun i => 1 + (if i =? w then mpow d (h_N d W) (S (length l)) w w else 0))%Qc)
        by (intros i _; destruct (i =? w); ring).
      rewrite sumn_plus, sumn_one. f_equal. rewrite (sumn_single d _ w); [rewrite Nat.eqb_refl; reflexivity|exact Hw|].
      intros k _ Nk. destruct (Nat.eqb_spec k w); [contradiction|reflexivity]. }
    rewrite S1 in A. apply Qcle_minus_iff in A. apply Qcle_minus_iff.
    replace (sumn d (fun i => mpow d M d i i) - qn d + - mpow d (h_N d W) (S (length l)) w w)%Qc
      with (sumn d (fun i => mpow d M d i i) + - (qn d + mpow d (h_N d W) (S (length l)) w w))%Qc by ring. exact A. }
  split.
  - eapply Qcle_trans; [|exact D]. apply (walk_pow_ge d (h_N d W) (h_N_nonneg d W Hd) t l w w); try assumption.
    intros i j Hi Hj N. apply HN; try assumption. intro Z. apply N. apply h_N_zero; [exact Hd|exact Z].
  - eapply Qclt_le_trans; [|exact D]. apply (walk_pow_pos d (h_N d W) (h_N_nonneg d W Hd) l w w); assumption.
Qed.

Lemma h_zero_acyclic : forall d W, 1 <= d -> h_of d W = 0%Qc -> acyclic (edge_of d W).
Proof.
  intros d W Hd H v C. destruct (h_cycle d W 0%Qc v Hd (Qcle_refl 0)) as (k & _ & _ & _ & P); [|exact C|].
  - intros i j Hi Hj _. apply h_N_nonneg; assumption.
  - rewrite H in P. discriminate.
Qed.
Lemma qprod_repeat_le : forall t k m, (0 <= t)%Qc -> (t <= 1)%Qc -> k <= m -> (qprod (repeat t m) <= qprod (repeat t k))%Qc.
Proof.
  intros t k m H0 H1 Hk. induction Hk as [|m Hk IH]; [apply Qcle_refl|]. eapply Qcle_trans; [|exact IH].
  cbn [repeat]. unfold qprod at 1. cbn [fold_right]. fold (qprod (repeat t m)).
  replace (qprod (repeat t m)) with (1 * qprod (repeat t m))%Qc at 2 by ring. apply Qcmult_le_compat_r; [exact H1|].
  clear IH. clear - H0. induction m as [|m IH]; [discriminate|]. cbn [repeat]. unfold qprod. cbn [fold_right]. apply Qcmult_nonneg; [exact H0|exact IH].
Qed.
Lemma qabs_square : forall a, (qabs a * qabs a = a * a)%Qc.
Proof. intro a. unfold qabs. destruct (qltb a 0); ring. Qed.
Lemma Qcle_square : forall a b, (0 <= a)%Qc -> (a <= b)%Qc -> (a * a <= b * b)%Qc.
Proof.
  intros a b Ha Hb. eapply Qcle_trans; [apply Qcmult_le_compat_r; [exact Hb|exact Ha]|].
  rewrite Qcmult_comm. apply Qcmult_le_compat_r; [exact Hb|]. eapply Qcle_trans; eassumption.
Qed.
Lemma Qcinv_pos : forall b, (0 < b)%Qc -> (0 <= / b)%Qc.
Proof. intros b H. replace (/ b)%Qc with (1 / b)%Qc by (unfold Qcdiv; ring). apply Qcdiv_nonneg; [discriminate|exact H]. Qed.
(** If every non-zero weight is at least [tau] in absolute value, [(tau^2/d)^d] is a safe tolerance. *)
Lemma safe_tolerance : forall d W tau, 1 <= d -> (0 <= tau)%Qc -> (tau <= 1)%Qc ->
  (forall i j, i < d -> j < d -> W i j <> 0%Qc -> (tau <= qabs (W i j))%Qc) ->
  (h_of d W < qprod (repeat (tau * tau / qn d) d))%Qc -> acyclic (edge_of d W).
Proof.
  intros d W tau Hd H0 H1 HW Hh v C. set (t := (tau * tau / qn d)%Qc) in *.
  assert (P : (0 <= / qn d)%Qc) by (apply Qcinv_pos; apply qn_pos; exact Hd).
  assert (T0 : (0 <= t)%Qc) by (apply Qcdiv_nonneg; [apply Qcsquare_nonneg|apply qn_pos; exact Hd]).
  assert (T1 : (t <= 1)%Qc).
  { unfold t, Qcdiv. assert (A : (tau * tau <= 1 * 1)%Qc) by (apply Qcle_square; assumption).
    eapply Qcle_trans; [apply Qcmult_le_compat_r; [exact A|exact P]|].
    assert (B : (1 <= qn d)%Qc).
    { clear - Hd. destruct d as [|d]; [lia|]. rewrite qn_S. clear Hd. induction d as [|d IH]; [discriminate|].
      rewrite qn_S. eapply Qcle_trans; [exact IH|]. replace (qn d + 1)%Qc with (qn d + 1 + 0)%Qc at 1 by ring. apply Qcplus_le_compat; [apply Qcle_refl|discriminate]. }
    assert (Cc : (1 * / qn d <= qn d * / qn d)%Qc) by (apply Qcmult_le_compat_r; assumption).
    rewrite Qcmult_inv_r in Cc by (intro Z; rewrite Z in B; apply B; reflexivity). replace (1 * 1 * / qn d)%Qc with (1 * / qn d)%Qc by ring. exact Cc. }
  destruct (h_cycle d W t v Hd T0) as (k & K1 & K2 & K3 & _); [|exact C|].
  - intros i j Hi Hj N. unfold t, h_N, Qcdiv. apply Qcmult_le_compat_r; [|exact P]. rewrite <- (qabs_square (W i j)).
    apply Qcle_square; [exact H0|]. apply HW; assumption.
  - pose proof (qprod_repeat_le t k d T0 T1 K2) as L. apply Qclt_not_le in Hh. apply Hh. eapply Qcle_trans; eassumption.
Qed.

(** ** The local search *)
Lemma improve_spec : forall d tol loss cands b, snd b = loss (fst b) ->
  let r := improve d tol loss cands b in
  snd r = loss (fst r) /\ (loss (fst r) <= loss (fst b))%Qc /\
  (r = b \/ (In (fst r) cands /\ (h_of d (fst r) < tol)%Qc /\ (loss (fst r) < loss (fst b))%Qc)) /\
  (forall V, In V cands -> (h_of d V < tol)%Qc -> (loss (fst r) <= loss V)%Qc).
Proof.
  intros d tol loss cands. induction cands as [|V cands IH]; intros b Hb r.
  - unfold r. cbn. split; [exact Hb|]. split; [apply Qcle_refl|]. split; [left; reflexivity|intros V []].
  - unfold r, improve. cbn [fold_left]. set (b' := if qltb (loss V) (snd b) && qltb (h_of d V) tol then (V, loss V) else b).
    assert (Hb' : snd b' = loss (fst b')) by (unfold b'; destruct (_ && _); [reflexivity|exact Hb]).
    destruct (IH b' Hb') as (I1 & I2 & I3 & I4). fold (improve d tol loss cands b').
    assert (C : (b' = (V, loss V) /\ (loss V < loss (fst b))%Qc /\ (h_of d V < tol)%Qc) \/
                (b' = b /\ ((h_of d V < tol)%Qc -> (loss (fst b) <= loss V)%Qc))).
    { unfold b'. rewrite Hb. destruct (qltb (loss V) (loss (fst b))) eqn:E1; destruct (qltb (h_of d V) tol) eqn:E2; cbn [andb].
      - left. apply qltb_lt in E1, E2. tauto.
      - right. split; [reflexivity|]. intro H. apply qltb_lt in H. congruence.
      - right. split; [reflexivity|]. intros _. apply qltb_nlt. exact E1.
      - right. split; [reflexivity|]. intro H. apply qltb_lt in H. congruence. }
    split; [exact I1|]. destruct C as [(C1 & C2 & C3)|(C1 & C2)].
    + rewrite C1 in *. cbn [fst] in *. split; [eapply Qcle_trans; [exact I2|apply Qclt_le_weak; exact C2]|]. split.
      * right. destruct I3 as [I3|(I3 & I5 & I6)].
        -- rewrite I3. cbn [fst]. split; [left; reflexivity|]. tauto.
        -- split; [right; exact I3|]. split; [exact I5|]. eapply Qclt_trans; eassumption.
      * intros U [HU|HU] Hh; [subst U; exact I2|apply I4; assumption].
    + rewrite C1 in *. split; [exact I2|]. split.
      * destruct I3 as [I3|(I3 & I5 & I6)]; [left; exact I3|right]. split; [right; exact I3|]. tauto.
      * intros U [HU|HU] Hh; [subst U; eapply Qcle_trans; [exact I2|apply C2; exact Hh]|apply I4; assumption].
Qed.
Lemma bit_settings_In : forall k bits, In bits (bit_settings k) <-> length bits = k.
Proof.
  induction k as [|k IH]; intro bits; cbn [bit_settings].
  - split; [intros [<-|[]]; reflexivity|]. intro H. left. destruct bits; [reflexivity|discriminate].
  - rewrite in_app_iff, !in_map_iff. split.
    + intros [[x [<- H]]|[x [<- H]]]; cbn; f_equal; apply IH; exact H.
    + intro H. destruct bits as [|[] bits]; [discriminate|right|left]; exists bits; (split; [reflexivity|apply IH; cbn in H; lia]).
Qed.
Lemma bit_settings_hd : forall k, exists r, bit_settings k = repeat false k :: r.
Proof.
  induction k as [|k [r IH]]; [exists []; reflexivity|]. cbn [bit_settings]. rewrite IH. cbn [map app repeat]. eexists. reflexivity.
Qed.
Lemma reverse_none : forall I W, reverse_edges W I (repeat false (length I)) = W.
Proof. unfold reverse_edges. induction I as [|[i j] I IH]; intro W; [reflexivity|]. cbn [length repeat combine fold_left]. apply IH. Qed.

Definition search_inv (d : nat) (tol : Qc) (loss : mat Qc -> Qc) (West : mat Qc) (b : mat Qc * Qc) : Prop :=
  snd b = loss (fst b) /\ (fst b = West \/ ((h_of d (fst b) < tol)%Qc /\ (loss (fst b) < loss West)%Qc)) /\
  (loss (fst b) <= loss West)%Qc /\
  (forall bits, length bits = length (nonzeros d West) ->
     (h_of d (reverse_edges West (nonzeros d West) bits) < tol)%Qc -> (loss (fst b) <= loss (reverse_edges West (nonzeros d West) bits))%Qc).
Lemma improve_inv : forall d tol loss West cands b, search_inv d tol loss West b -> search_inv d tol loss West (improve d tol loss cands b).
Proof.
  intros d tol loss West cands b (H1 & H2 & H3 & H4). destruct (improve_spec d tol loss cands b H1) as (I1 & I2 & I3 & I4).
  unfold search_inv. split; [exact I1|]. split.
  - destruct I3 as [->|(_ & I5 & I6)]; [exact H2|]. right. split; [exact I5|]. eapply Qclt_le_trans; eassumption.
  - split; [eapply Qcle_trans; eassumption|]. intros bits Hb Hh. eapply Qcle_trans; [exact I2|apply H4; assumption].
Qed.
Lemma local_search_inv : forall d tol loss West, search_inv d tol loss West (local_search d tol loss West).
Proof.
  intros d tol loss West. unfold local_search. set (I := nonzeros d West).
  set (b0 := improve d tol loss (map (reverse_edges West I) (tl (bit_settings (length I)))) (West, loss West)).
  assert (V0 : search_inv d tol loss West b0).
  { destruct (improve_spec d tol loss (map (reverse_edges West I) (tl (bit_settings (length I)))) (West, loss West) eq_refl) as (I1 & I2 & I3 & I4).
    fold b0 in I1, I2, I3, I4. cbn [fst] in I2. split; [exact I1|]. split.
    - destruct I3 as [->|(_ & I5 & I6)]; [left; reflexivity|right; split; assumption].
    - split; [exact I2|]. intros bits Hb Hh. fold I in Hb, Hh |- *.
      apply (proj2 (bit_settings_In (length I) bits)) in Hb. destruct (bit_settings_hd (length I)) as [r Er]. rewrite Er in Hb.
      destruct Hb as [Hb|Hb]; [subst bits; rewrite reverse_none; exact I2|].
      apply I4; [|exact Hh]. rewrite Er. cbn [tl]. apply in_map. exact Hb. }
  clearbody b0. cbv zeta.
  destruct ((2 <? d) && (d - 1 <? length I)); destruct ((2 <? d) && (2 * length I <? d * (d - 1)));
    repeat match goal with |- context [same_pattern ?a ?b ?c] => destruct (same_pattern a b c) end;
    repeat apply improve_inv; exact V0.
Qed.

(** ** The optimisation loop *)
Lemma ten_step : forall rho, (1 <= rho)%Qc -> (rho + 1 <= rho * qz 10)%Qc.
Proof.
  intros rho H. apply Qcle_minus_iff. replace (rho * qz 10 + - (rho + 1))%Qc with ((rho - 1) * qz 9 + qz 8)%Qc.
  - apply Qcplus_nonneg; [|discriminate]. apply Qcmult_nonneg; [|discriminate]. apply Qcle_minus_iff in H. exact H.
  - replace (qz 10) with (qz 9 + 1)%Qc by (apply Qc_is_canon; reflexivity). replace (qz 9) with (qz 8 + 1)%Qc by (apply Qc_is_canon; reflexivity). ring.
Qed.
Lemma inner_ok : forall minimize d st lt fuel alpha w h rho cur, (1 <= rho)%Qc -> (ls_rho_max st <= rho + qn fuel)%Qc ->
  (forall wn hn, cur = Some (wn, hn) -> (exists r, wn = minimize lt r alpha w) /\ hn = h_of d (adj_of d wn)) ->
  exists cur' rho', inner minimize d st lt fuel alpha w h rho cur = Ok (cur', rho') /\ (1 <= rho')%Qc /\
    (forall wn hn, cur' = Some (wn, hn) -> (exists r, wn = minimize lt r alpha w) /\ hn = h_of d (adj_of d wn)) /\
    ((rho < ls_rho_max st)%Qc \/ cur <> None -> cur' <> None) /\
    (cur = None -> ~ (rho < ls_rho_max st)%Qc -> cur' = None).
Proof.
  intros minimize d st lt fuel. induction fuel as [|fuel IH]; intros alpha w h rho cur H1 HF HC; cbn [inner].
  - destruct (qltb rho (ls_rho_max st)) eqn:E; cbn [negb].
    + exfalso. apply qltb_lt in E. apply Qclt_not_le in E. apply E. replace (rho + qn 0)%Qc with rho in HF; [exact HF|].
      replace (qn 0) with 0%Qc by (apply Qc_is_canon; reflexivity). ring.
    + exists cur, rho. split; [reflexivity|]. split; [exact H1|]. split; [exact HC|]. split; [|intros; assumption].
      intros [H|H]; [|exact H]. apply qltb_lt in H. congruence.
  - destruct (qltb rho (ls_rho_max st)) eqn:E; cbn [negb].
    + set (wn := minimize lt rho alpha w). set (hn := h_of d (adj_of d wn)).
      assert (HS : forall wn' hn', Some (wn, hn) = Some (wn', hn') -> (exists r, wn' = minimize lt r alpha w) /\ hn' = h_of d (adj_of d wn')).
      { intros wn' hn' Q. injection Q as <- <-. split; [exists rho; reflexivity|reflexivity]. }
      destruct (match h with Some h0 => qleb (qf 1 4 * h0) hn | None => false end).
      * destruct (IH alpha w h (rho * qz 10)%Qc (Some (wn, hn))) as (cur' & rho' & E1 & E2 & E3 & E4 & E5).
        -- eapply Qcle_trans; [exact H1|]. eapply Qcle_trans; [|apply ten_step; exact H1]. replace rho with (rho + 0)%Qc at 1 by ring. apply Qcplus_le_compat; [apply Qcle_refl|discriminate].
        -- eapply Qcle_trans; [exact HF|]. rewrite qn_S. replace (rho + (qn fuel + 1))%Qc with ((rho + 1) + qn fuel)%Qc by ring.
           apply Qcplus_le_compat; [apply ten_step; exact H1|apply Qcle_refl].
        -- exact HS.
        -- exists cur', rho'. split; [exact E1|]. split; [exact E2|]. split; [exact E3|]. split; [intros _; apply E4; right; discriminate|].
           intros _ N. exfalso. apply N. apply qltb_lt. exact E.
      * exists (Some (wn, hn)), rho. split; [reflexivity|]. split; [exact H1|]. split; [exact HS|]. split; [discriminate|].
        intros _ N. exfalso. apply N. apply qltb_lt. exact E.
    + exists cur, rho. split; [reflexivity|]. split; [exact H1|]. split; [exact HC|]. split; [|intros; assumption].
      intros [H|H]; [|exact H]. apply qltb_lt in H. congruence.
Qed.
Lemma ceiling_fuel : forall q rho, (1 <= rho)%Qc -> (q <= rho + qn (S (Z.to_nat (Qceiling q))))%Qc.
Proof.
  intros q rho H. rewrite qn_S. assert (A : (q <= qn (Z.to_nat (Qceiling q)))%Qc).
  { unfold Qcle. setoid_replace (this (qn (Z.to_nat (Qceiling q)))) with (inject_Z (Z.of_nat (Z.to_nat (Qceiling q)))) by apply Qred_correct.
    eapply Qle_trans; [apply Qle_ceiling|]. rewrite <- Zle_Qle. lia. }
  eapply Qcle_trans; [exact A|]. replace (qn (Z.to_nat (Qceiling q))) with (0 + qn (Z.to_nat (Qceiling q)))%Qc at 1 by ring.
  replace (rho + (qn (Z.to_nat (Qceiling q)) + 1))%Qc with ((rho + 1) + qn (Z.to_nat (Qceiling q)))%Qc by ring.
  apply Qcplus_le_compat; [|apply Qcle_refl]. apply Qcplus_nonneg; [|discriminate]. eapply Qcle_trans; [|exact H]. discriminate.
Qed.
Lemma outer_ok : forall minimize rnd d st lt iters k w rho alpha h, (1 < ls_rho_max st)%Qc -> (1 <= rho)%Qc -> (rho < ls_rho_max st)%Qc ->
  exists w' b, outer minimize rnd d st lt iters k w rho alpha h = Ok (w', b) /\
    (b = true -> (exists r a w0, w' = minimize lt r a w0)) /\
    (b = false -> w' = w \/ (exists r a w0, w' = minimize lt r a w0) \/ (exists k', w' = rnd k')).
Proof.
  intros minimize rnd d st lt. induction iters as [|iters IH]; intros k w rho alpha h HR H1 H2; cbn [outer].
  - exists w, false. split; [reflexivity|]. split; [discriminate|left; reflexivity].
  - destruct (inner_ok minimize d st lt (inner_fuel st) alpha w h rho None H1) as (cur & rho' & E & R1 & HC & HN & _).
    { apply ceiling_fuel. exact H1. } { intros; discriminate. }
    rewrite E. cbn [bind]. destruct cur as [[wn hn]|]; [|exfalso; apply HN; [left; exact H2|reflexivity]].
    destruct (HC wn hn eq_refl) as [[r Hr] Hh].
    destruct (qleb hn (ls_h_tol st) && negb (qeqb hn 0)).
    { exists wn, true. split; [reflexivity|]. split; [intros _; exists r, alpha, w; exact Hr|discriminate]. }
    destruct (qleb (ls_rho_max st * qf 1 1000000) rho' && qltb (qz 100000) hn) eqn:EA; cbn [negb andb].
    + destruct (qltb (abs_sum d (adj_of d (rnd k))) (qf 9 100)).
      * destruct (IH (S (S k)) (rnd (S k)) 1%Qc (alpha + rho' * hn)%Qc (Some hn) HR (Qcle_refl 1) HR) as (w' & b & E' & B1 & B2).
        exists w', b. split; [exact E'|]. split; [exact B1|]. intro Hb. destruct (B2 Hb) as [->|[X|X]]; [right; right; exists (S k); reflexivity|right; left; exact X|right; right; exact X].
      * destruct (IH (S k) (rnd k) 1%Qc (alpha + rho' * hn)%Qc (Some hn) HR (Qcle_refl 1) HR) as (w' & b & E' & B1 & B2).
        exists w', b. split; [exact E'|]. split; [exact B1|]. intro Hb. destruct (B2 Hb) as [->|[X|X]]; [right; right; exists k; reflexivity|right; left; exact X|right; right; exact X].
    + destruct (qleb (ls_rho_max st) rho') eqn:EB.
      { exists wn, true. split; [reflexivity|]. split; [intros _; exists r, alpha, w; exact Hr|discriminate]. }
      assert (R2 : (rho' < ls_rho_max st)%Qc) by (unfold qleb in EB; apply negb_false_iff in EB; apply qltb_lt in EB; exact EB).
      destruct (qltb (abs_sum d (adj_of d wn)) (qf 9 100)).
      * destruct (IH (S k) (rnd k) rho' (alpha + rho' * hn)%Qc (Some hn) HR R1 R2) as (w' & b & E' & B1 & B2).
        exists w', b. split; [exact E'|]. split; [exact B1|]. intro Hb. destruct (B2 Hb) as [->|[X|X]]; [right; right; exists k; reflexivity|right; left; exact X|right; right; exact X].
      * destruct (IH k wn rho' (alpha + rho' * hn)%Qc (Some hn) HR R1 R2) as (w' & b & E' & B1 & B2).
        exists w', b. split; [exact E'|]. split; [exact B1|]. intro Hb. destruct (B2 Hb) as [->|[X|X]]; [right; left; exists r, alpha, w; exact Hr|right; left; exact X|right; right; exact X].
Qed.
