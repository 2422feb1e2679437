(** * Proofs: the solver, the rows and the degree in HighDimDirectLiNGAM *)
From Coq Require Import List Arith Bool ZArith QArith Qcanon Lia Permutation Sorted.
From Verif Require Import Prelude Spec SpecPop SpecHDPop Lib LibMat ModelDirect ModelRCD ModelHighDim ModelHighDimData
  ProofLim ProofPop ProofRCD ProofHighDim ProofHighDim2 ProofHDPop ProofHDUnits ProofHDUnits2.
From Verif Require ProofMGPop.
Import ListNotations.
Open Scope nat_scope.

(** Statistics that agree on lists without repetition give the same order. *)
Lemma order_same : forall tau0 tau0' tau tau' enum J alpha n, (forall l, Permutation (enum l) l) ->
  (forall v j, v < n -> j < n -> tau0' v j = tau0 v j) -> (forall v C j, NoDup C -> tau' v C j = tau v C j) ->
  hd_order tau0' tau' enum J alpha true n = hd_order tau0 tau enum J alpha true n.
Proof.
  intros tau0 tau0' tau tau' enum J alpha n HE H0 H1. unfold hd_order. set (T := fun i j : nat => if i =? j then 0%Qc else qz 100000). destruct n as [|m]; [reflexivity|].
  cbn [hd_loop]. destruct (length (seq 0 (S m)) <=? 1) eqn:L; [reflexivity|].
  assert (one : (0 < 1)%Qc) by reflexivity.
  assert (HU : prop 1 [] (seq 0 (S m)) (update_stats tau0 tau enum J true [] (seq 0 (S m)) T 0) (update_stats tau0' tau' enum J true [] (seq 0 (S m)) T 0)).
  { intros i j Hi Hj. cbn [app] in Hj. unfold update_stats. destruct (Nat.eqb_spec i j) as [->|Nij].
    { split; [ring|]. split; vm_compute; discriminate. }
    rewrite (proj2 (memb_In i _) Hi). cbn [map last get_prune_stats]. rewrite (proj2 (memb_In j _)) by (apply remove_nat_In; split; [exact Hj|congruence]).
    apply in_seq in Hi. apply in_seq in Hj. rewrite H0 by lia. unfold T. rewrite (proj2 (Nat.eqb_neq i j) Nij). split; [ring|]. apply (below_min 1 one). split; vm_compute; discriminate. }
  rewrite (max_scaled 1 one [] (seq 0 (S m)) _ _ HU), argmin_scaled by exact one. destruct (np_argmin _) as [i|]; [|reflexivity]. destruct (nth_error (seq 0 (S m)) i) as [r|] eqn:En; [|reflexivity]. apply nth_error_In in En.
  apply (loop_scaled tau0 tau0' tau tau' enum J alpha HE 1 one).
  - intros v C j ND. rewrite H1 by exact ND. ring.
  - discriminate.
  - eapply Permutation_NoDup; [|apply (seq_NoDup (S m) 0)]. cbn [app]. apply remove_nat_perm; [apply seq_NoDup|exact En].
  - apply prop_next; [apply seq_NoDup|exact En|exact HU].
  - rewrite qmin_list_scaled by exact one. rewrite !Qcmult_1_l. reflexivity.
Qed.

(** Rows chosen by [s] with the same averages. *)
Lemma moment_rows : forall N N' (s : nat -> nat) K u y, (forall h, mean N' (fun r => h (s r)) = mean N h) -> moment_stat N' K (fun r => u (s r)) (fun r => y (s r)) = moment_stat N K u y.
Proof.
  intros N N' s K u y H. unfold moment_stat. rewrite (H (fun r => u r ^ (K - 1) * y r)%Qc), (H (fun r => u r ^ 2)%Qc), (H (fun r => u r ^ K)%Qc), (H (fun r => u r * y r)%Qc). reflexivity.
Qed.
Lemma residual_rows : forall N N' (s : nat -> nat) x C v u, 0 < N -> 0 < N' -> (forall r, r < N' -> s r < N) -> (forall h, mean N' (fun r => h (s r)) = mean N h) ->
  residual_on N x C v u -> residual_on N' (fun j r => x j (s r)) C v (fun r => u (s r)).
Proof.
  intros N N' s x C v u HN HN' HS H [(b & Hb) O]. split; [exists b; intros r Hr; apply Hb; apply HS; exact Hr|].
  intros q Hq. specialize (O q Hq). unfold dot in *. specialize (H (fun r => u r * x q r)%Qc). unfold mean in H. rewrite O in H.
  transitivity (sumn N' (fun r => u (s r) * x q (s r))%Qc / qn N' * qn N')%Qc; [field; apply qn_nonzero; exact HN'|]. rewrite H. unfold Qcdiv. ring.
Qed.
Lemma order_rows : forall N N' (s : nat -> nat) pinv pinv' K Y enum J alpha n, (forall l, Permutation (enum l) l) -> normal_equations N pinv -> normal_equations N' pinv' ->
  0 < N -> 0 < N' -> (forall r, r < N' -> s r < N) -> (forall h, mean N' (fun r => h (s r)) = mean N h) ->
  data_order N' pinv' K (fun j r => Y j (s r)) enum J alpha n = data_order N pinv K Y enum J alpha n.
Proof.
  intros N N' s pinv pinv' K Y enum J alpha n HE NE NE' HN HN' HS H. unfold data_order. apply order_same; [exact HE| |].
  - intros v j _ _. rewrite !data_tau0_eq. f_equal. apply moment_rows. exact H.
  - intros v C j ND. rewrite !data_tau_eq. f_equal. rewrite <- (moment_rows N N' s K _ (Y j) H). apply moment_stat_ext; [|reflexivity].
    apply (residual_unique N' (fun j r => Y j (s r)) C v); [apply resid_spec; assumption|]. apply (residual_rows N N' s Y C v); try assumption. apply resid_spec; assumption.
Qed.

(** ** Degrees one and two *)
Lemma stat_two : forall N u y, moment_stat N 2 u y = 0%Qc.
Proof.
  intros. unfold moment_stat. cbn [Nat.sub]. rewrite (mean_ext N (fun r => u r ^ 1 * y r)%Qc (fun r => u r * y r)%Qc) by (intros; cbn [Qcpower]; ring). ring.
Qed.
Lemma stat_one : forall N u y, mean N u = 0%Qc -> mean N y = 0%Qc -> moment_stat N 1 u y = 0%Qc.
Proof.
  intros N u y Hu Hy. unfold moment_stat. cbn [Nat.sub]. rewrite (mean_ext N (fun r => u r ^ 0 * y r)%Qc y) by (intros; cbn [Qcpower]; ring).
  rewrite (mean_ext N (fun r => u r ^ 1)%Qc u) by (intros; cbn [Qcpower]; ring). rewrite Hu, Hy. ring.
Qed.
Lemma resid_mean : forall N pinv Y C v, (forall q, In q (v :: C) -> mean N (Y q) = 0%Qc) -> mean N (hd_resid pinv Y C v) = 0%Qc.
Proof.
  intros N pinv Y C v H. unfold hd_resid. cbv zeta. rewrite (mean_ext N _ (fun r => 1 * Y v r + - (1) * sumf C (fun q => pinv Y C v q * Y q r))%Qc) by (intros; ring).
  rewrite mean_lin, (H v (or_introl eq_refl)).
  assert (E : forall C, (forall q, In q C -> mean N (Y q) = 0%Qc) -> forall b : nat -> Qc, mean N (fun r => sumf C (fun q => b q * Y q r)%Qc) = 0%Qc).
  { clear. induction C as [|a C IH]; intros H b; [unfold mean; rewrite sumn_zero; [unfold Qcdiv; ring|reflexivity]|].
    rewrite (mean_ext N _ (fun r => b a * Y a r + 1 * sumf C (fun q => b q * Y q r))%Qc) by (intros; rewrite sumf_cons; ring).
    rewrite mean_lin, (H a (or_introl eq_refl)), IH; [ring|]. intros q Hq. apply H. right. exact Hq. }
  rewrite (E C (fun q Hq => H q (or_intror Hq))). ring.
Qed.
Lemma order_degree_two : forall N pinv Y enum J alpha n, (forall l, Permutation (enum l) l) -> data_order N pinv 2 Y enum J alpha n = Ok (seq 0 n).
Proof.
  intros N pinv Y enum J alpha n HE. apply all_zero; [exact HE| |].
  - intros v j _ _ _. rewrite data_tau0_eq, stat_two. reflexivity.
  - intros v C j _ _ _ _. rewrite data_tau_eq, stat_two. reflexivity.
Qed.
Lemma order_degree_one : forall N pinv Y enum J alpha n, (forall l, Permutation (enum l) l) -> (forall j, j < n -> mean N (Y j) = 0%Qc) -> data_order N pinv 1 Y enum J alpha n = Ok (seq 0 n).
Proof.
  intros N pinv Y enum J alpha n HE HM. apply all_zero; [exact HE| |].
  - intros v j Hv Hj _. rewrite data_tau0_eq, stat_one; [reflexivity|apply HM; exact Hv|apply HM; exact Hj].
  - intros v C j Hv Hj _ HC. rewrite data_tau_eq, stat_one; [reflexivity| |apply HM; exact Hj]. apply resid_mean. intros q [<-|Hq]; apply HM; [exact Hv|apply HC; exact Hq].
Qed.

(** ** Large units *)
Lemma Qcdiv_pos : forall a b, (0 < a)%Qc -> (0 < b)%Qc -> (0 < a / b)%Qc.
Proof. intros a b Ha Hb. apply Qcmult_pos; [exact Ha|]. apply ProofMGPop.Qcinv_pos. exact Hb. Qed.
Lemma pow_ge : forall c k, (1 <= c)%Qc -> (1 <= c ^ k)%Qc.
Proof.
  intros c k Hc. assert (P : (0 <= c)%Qc) by (apply (Qcle_trans _ 1); [vm_compute; discriminate|exact Hc]).
  induction k as [|k IH]; [apply Qcle_refl|]. cbn [Qcpower]. apply (Qcle_trans _ (c * 1)%Qc); [rewrite Qcmult_1_r; exact Hc|]. rewrite (Qcmult_comm c 1), (Qcmult_comm c (c ^ k)). apply Qcmult_le_compat_r; assumption.
Qed.
Lemma pow_ge_self : forall c k, (1 <= c)%Qc -> (c <= c ^ (S k))%Qc.
Proof.
  intros c k Hc. assert (P : (0 <= c)%Qc) by (apply (Qcle_trans _ 1); [vm_compute; discriminate|exact Hc]). cbn [Qcpower].
  rewrite <- (Qcmult_1_l c) at 1. rewrite (Qcmult_comm c). apply Qcmult_le_compat_r; [apply pow_ge; exact Hc|exact P].
Qed.
Lemma order_large : forall N pinv K Y enum J alpha n t, (forall l, Permutation (enum l) l) -> normal_equations N pinv -> 1 <= K -> (0 < t)%Qc ->
  (forall v C j u, v < n -> j < n -> v <> j -> NoDup C -> ~ In v C -> (forall q, In q C -> q < n) -> length C + 2 <= n -> residual_on N Y C v u -> (t <= qabs (moment_stat N K u (Y j)))%Qc) ->
  exists c0, (0 < c0)%Qc /\ forall c, (c0 <= c)%Qc -> data_order N pinv K (fun j => times c (Y j)) enum J alpha n = Ok (seq 0 n).
Proof.
  intros N pinv K Y enum J alpha n t HE NE HK Ht H.
  assert (P0 : (0 < qz 100000 / t)%Qc) by (apply Qcdiv_pos; [reflexivity|exact Ht]).
  exists (qz 100000 / t + 1)%Qc. split.
  { apply (Qclt_le_trans _ _ _ P0). rewrite <- (Qcplus_0_r (qz 100000 / t)) at 1. apply Qcplus_le_compat; [apply Qcle_refl|vm_compute; discriminate]. }
  intros c Hc.
  assert (C1 : (1 <= c)%Qc). { apply (Qcle_trans _ (qz 100000 / t + 1)%Qc); [|exact Hc]. rewrite <- (Qcplus_0_l 1) at 1. apply Qcplus_le_compat; [apply Qclt_le_weak; exact P0|apply Qcle_refl]. }
  assert (C0 : (0 < c)%Qc) by (apply (Qclt_le_trans _ 1); [reflexivity|exact C1]).
  assert (CT : (qz 100000 <= c * t)%Qc).
  { replace (qz 100000) with (qz 100000 / t * t)%Qc by (field; intro Z; rewrite Z in Ht; discriminate Ht). apply Qcmult_le_compat_r; [|apply Qclt_le_weak; exact Ht].
    apply (Qcle_trans _ (qz 100000 / t + 1)%Qc); [|exact Hc]. rewrite <- (Qcplus_0_r (qz 100000 / t)) at 1. apply Qcplus_le_compat; [apply Qcle_refl|vm_compute; discriminate]. }
  assert (G : forall a, (t <= a)%Qc -> (qz 100000 <= c ^ (K + 2) * a)%Qc).
  { intros a Ha. apply (Qcle_trans _ _ _ CT). apply (Qcle_trans _ (c * a)%Qc); [rewrite !(Qcmult_comm c); apply Qcmult_le_compat_r; [exact Ha|apply Qclt_le_weak; exact C0]|].
    apply Qcmult_le_compat_r; [|apply (Qcle_trans _ t); [apply Qclt_le_weak; exact Ht|exact Ha]]. replace (K + 2) with (S (K + 1)) by lia. apply pow_ge_self. exact C1. }
  apply all_capped; [exact HE| |].
  - intros v j Hv Hj NE'. rewrite data_tau0_scaled by assumption. apply G. rewrite data_tau0_eq. apply (H v [] j); try assumption; [constructor|intros []|intros ? []|cbn; lia|apply residual_nil; reflexivity].
  - intros v C j Hv Hj NE' ND _ NI HC L. rewrite data_tau_scaled by assumption. apply G. rewrite data_tau_eq. apply (H v C j); try assumption. apply resid_spec; assumption.
Qed.
Lemma order_units : forall N pinv K Y enum J alpha n c, (forall l, Permutation (enum l) l) -> normal_equations N pinv -> 1 <= K -> (0 < c)%Qc ->
  (forall v j, v < n -> j < n -> v <> j -> (qabs (moment_stat N K (Y v) (Y j)) <= qz 100000)%Qc /\ (c ^ (K + 2) * qabs (moment_stat N K (Y v) (Y j)) <= qz 100000)%Qc) ->
  data_order N pinv K (fun j => times c (Y j)) enum J alpha n = data_order N pinv K Y enum J alpha n.
Proof.
  intros N pinv K Y enum J alpha n c HE NE HK Hc H. unfold data_order.
  apply (order_scaled (data_tau0 N K Y) _ (data_tau N pinv K Y) _ enum J alpha HE (c ^ (K + 2))%Qc (Qcpow_pos c (K + 2) Hc) n).
  - intros v j _ _. apply data_tau0_scaled; assumption.
  - intros v C j ND. apply data_tau_scaled; assumption.
  - intros v j Hv Hj D. unfold below. rewrite data_tau0_eq. apply H; assumption.
Qed.

(** ** The unit of one of two columns *)
Definition rescale_one (c : Qc) (Y : nat -> sample) (j : nat) : sample := if j =? 1 then times c (Y 1) else Y j.
Lemma pow_le_two : forall c k, (0 < c)%Qc -> (c <= 1)%Qc -> (c ^ (S (S k)) <= c * c)%Qc.
Proof.
  intros c k C1 L1. assert (P : (c ^ k <= 1)%Qc).
  { induction k as [|k IH]; [apply Qcle_refl|]. cbn [Qcpower]. apply (Qcle_trans _ (1 * c ^ k)%Qc); [|rewrite Qcmult_1_l; exact IH]. apply Qcmult_le_compat_r; [exact L1|]. apply Qclt_le_weak, Qcpow_pos. exact C1. }
  cbn [Qcpower]. replace (c * (c * c ^ k))%Qc with (c ^ k * (c * c))%Qc by ring. apply (Qcle_trans _ (1 * (c * c))%Qc); [|rewrite Qcmult_1_l; apply Qcle_refl].
  apply Qcmult_le_compat_r; [exact P|]. apply Qclt_le_weak, Qcmult_pos; exact C1.
Qed.
Lemma order_two : forall N pinv K Y enum J alpha, data_order N pinv K Y enum J alpha 2 =
  Ok (if qltb (qmin (qz 100000) (qabs (moment_stat N K (Y 1) (Y 0)))) (qmin (qz 100000) (qabs (moment_stat N K (Y 0) (Y 1)))) then [1; 0] else [0; 1]).
Proof. intros. unfold data_order. rewrite two_columns; [rewrite !data_tau0_eq; reflexivity|]. intros a b. rewrite data_tau0_eq. apply qabs_nonneg. Qed.
Lemma one_unit : forall N pinv K Y enum J alpha, 1 <= K -> moment_stat N K (Y 0) (Y 1) <> 0%Qc -> moment_stat N K (Y 1) (Y 0) <> 0%Qc ->
  exists c1 c2, (0 < c1)%Qc /\ (0 < c2)%Qc /\ data_order N pinv K (rescale_one c1 Y) enum J alpha 2 = Ok [1; 0] /\ data_order N pinv K (rescale_one c2 Y) enum J alpha 2 = Ok [0; 1].
Proof.
  intros N pinv K Y enum J alpha HK HP HQ.
  set (p := qabs (moment_stat N K (Y 0) (Y 1))). set (q := qabs (moment_stat N K (Y 1) (Y 0))).
  assert (Pp : (0 < p)%Qc) by (apply qabs_pos; exact HP). assert (Pq : (0 < q)%Qc) by (apply qabs_pos; exact HQ).
  assert (E : forall c, (0 < c)%Qc -> data_order N pinv K (rescale_one c Y) enum J alpha 2 = Ok (if qltb (qmin (qz 100000) (c ^ (K + 1) * q)) (qmin (qz 100000) (c * p)) then [1; 0] else [0; 1])).
  { intros c Hc. rewrite order_two. unfold rescale_one. cbn [Nat.eqb].
    assert (O : forall y : sample, forall r, y r = times 1 y r) by (intros; unfold times; ring).
    rewrite (moment_stat_ext N K (times c (Y 1)) (times c (Y 1)) (Y 0) (times 1 (Y 0))) by (intros; solve [reflexivity|apply O]).
    rewrite (moment_stat_ext N K (Y 0) (times 1 (Y 0)) (times c (Y 1)) (times c (Y 1))) by (intros; solve [reflexivity|apply O]).
    rewrite !moment_scaled by exact HK. assert (P1 : (1 ^ (K + 1) = 1)%Qc) by (clear; induction (K + 1) as [|k IH]; [reflexivity|cbn [Qcpower]; rewrite IH; ring]). rewrite P1, Qcmult_1_l, Qcmult_1_r.
    rewrite (qabs_mult_pos c) by exact Hc. rewrite (qabs_mult_pos (c ^ (K + 1))) by (apply Qcpow_pos; exact Hc). reflexivity. }
  set (d := (p + q + p * p)%Qc).
  assert (Ppp := Qcmult_pos p p Pp Pp). assert (Pd : (0 < d)%Qc) by (unfold d; qclra).
  assert (Nd : d <> 0%Qc) by (intro Z; rewrite Z in Pd; discriminate Pd). assert (Nq : q <> 0%Qc) by (intro Z; rewrite Z in Pq; discriminate Pq).
  exists (p / d)%Qc, (1 + p / q)%Qc.
  assert (C1 : (0 < p / d)%Qc) by (apply Qcdiv_pos; assumption). assert (C2' : (0 < p / q)%Qc) by (apply Qcdiv_pos; assumption). assert (C2 : (0 < 1 + p / q)%Qc) by qclra.
  split; [exact C1|]. split; [exact C2|]. rewrite (E _ C1), (E _ C2). split.
  - set (c := (p / d)%Qc) in *. assert (CD : (c * p + c * q + c * (p * p) = p)%Qc) by (unfold c, d; field; exact Nd). clearbody c.
    assert (X1 := Qcmult_pos c p C1 Pp). assert (X2 := Qcmult_pos c q C1 Pq). assert (X3 := Qcmult_pos c (p * p)%Qc C1 Ppp).
    assert (L1 : (c <= 1)%Qc). { apply Qcnot_lt_le. intro G. assert (Y1 := Qcmult_pos (c - 1)%Qc p ltac:(qclra) Pp). assert (((c - 1) * p = c * p - p)%Qc) by ring. qclra. }
    assert (L2 : (c * q < p)%Qc) by qclra.
    assert (L3 : (c * p <= 1)%Qc). { apply Qcnot_lt_le. intro G. assert (Y1 := Qcmult_pos (c * p - 1)%Qc p ltac:(qclra) Pp). assert (((c * p - 1) * p = c * (p * p) - p)%Qc) by ring. qclra. }
    assert (L4 : (c ^ (K + 1) * q < c * p)%Qc).
    { apply (Qcle_lt_trans _ (c * (c * q))%Qc).
      - rewrite Qcmult_assoc. apply Qcmult_le_compat_r; [|apply Qclt_le_weak; exact Pq]. replace (K + 1) with (S (S (K - 1))) by lia. apply pow_le_two; assumption.
      - rewrite (Qcmult_comm c (c * q)), (Qcmult_comm c p). apply Qcmult_lt_compat_r; [exact C1|exact L2]. }
    assert (CAP : (1 <= qz 100000)%Qc) by (vm_compute; discriminate).
    rewrite (proj2 (qmin_iff (qz 100000) (c * p)%Qc)) by (apply (Qcle_trans _ 1); assumption).
    rewrite (proj2 (qmin_iff (qz 100000) (c ^ (K + 1) * q)%Qc)) by (apply (Qcle_trans _ (c * p)%Qc); [apply Qclt_le_weak; exact L4|apply (Qcle_trans _ 1); assumption]).
    rewrite (proj2 (qltb_lt _ _) L4). reflexivity.
  - set (c := (1 + p / q)%Qc) in *. assert (L1 : (1 <= c)%Qc) by (unfold c; qclra). assert (L2 : (p <= c * q)%Qc) by (replace (c * q)%Qc with (q + p)%Qc by (unfold c; field; exact Nq); qclra).
    assert (L3 : (c * p <= c ^ (K + 1) * q)%Qc).
    { apply (Qcle_trans _ (c * (c * q))%Qc); [rewrite (Qcmult_comm c (c * q)), (Qcmult_comm c p); apply Qcmult_le_compat_r; [exact L2|apply Qclt_le_weak; exact C2]|].
      rewrite Qcmult_assoc. apply Qcmult_le_compat_r; [|apply Qclt_le_weak; exact Pq]. replace (K + 1) with (S (S (K - 1))) by lia. change (c ^ (S (S (K - 1))))%Qc with (c * c ^ (S (K - 1)))%Qc.
      rewrite (Qcmult_comm c (c ^ S (K - 1))). apply Qcmult_le_compat_r; [apply pow_ge_self; exact L1|apply Qclt_le_weak; exact C2]. }
    replace (qltb _ _) with false; [reflexivity|]. symmetry. apply qltb_nlt. unfold qmin.
    destruct (qltb (c * p) (qz 100000)) eqn:E1; destruct (qltb (c ^ (K + 1) * q) (qz 100000)) eqn:E2; try exact L3; try apply Qcle_refl.
    + apply Qclt_le_weak, qltb_lt. exact E1.
    + apply qltb_nlt in E1. apply (Qcle_trans _ _ _ E1 L3).
Qed.
