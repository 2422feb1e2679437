(** * C218: MDLiNA.calc_vif *)
From Coq Require Import List Arith Lia Bool ZArith QArith Qcanon.
From Verif Require Import Prelude Lib LibMat SpecPop SpecVif ModelVif ProofPop.
Import ListNotations.
Open Scope Qc_scope.

(** A least-squares regression without intercept on the table X. *)
Definition plain_least_squares (ols : nat -> nat -> (nat -> nat -> Qc) -> nat -> nat -> Qc) (N p : nat) (X : nat -> nat -> Qc) : Prop :=
  forall i j, (i < p)%nat -> (j < p)%nat -> j <> i -> sumn N (fun s => error_of p i 0 (ols N p X i) X s * X s j) = 0.
(** The others span the constant. *)
Definition spans_one (N p : nat) (X : nat -> nat -> Qc) (i : nat) : Prop := exists c, forall s, (s < N)%nat -> of_others p i c X s = 1.

Lemma orthogonal : forall N p i X b0 b c, least_squares N p i X b0 b -> sumn N (fun s => error_of p i b0 b X s * of_others p i c X s) = 0.
Proof.
  intros N p i X b0 b c [_ H]. unfold of_others.
  rewrite (sumn_ext N _ (fun s => sumn p (fun j => if (j =? i)%nat then 0 else c j * (error_of p i b0 b X s * X s j)))).
  2:{ intros s Hs. rewrite <- sumn_scal. apply sumn_ext. intros j Hj. destruct (j =? i)%nat; ring. }
  rewrite sumn_swap. apply sumn_zero. intros j Hj. destruct (Nat.eqb_spec j i) as [->|D]; [apply sumn_zero; reflexivity|]. rewrite sumn_scal, H by assumption. ring.
Qed.
Lemma errors_unique : forall N p i X b0 b b0' b', least_squares N p i X b0 b -> least_squares N p i X b0' b' ->
  sumn N (fun s => error_of p i b0 b X s * error_of p i b0 b X s) = sumn N (fun s => error_of p i b0' b' X s * error_of p i b0' b' X s).
Proof.
  assert (H : forall N p i X b0 b b0' b', least_squares N p i X b0 b -> sumn N (fun s => error_of p i b0 b X s * error_of p i b0 b X s) = sumn N (fun s => error_of p i b0 b X s * error_of p i b0' b' X s)).
  { intros N p i X b0 b b0' b' L. pose proof (orthogonal N p i X b0 b b L) as O1. pose proof (orthogonal N p i X b0 b b' L) as O2. destruct L as [L0 _].
    rewrite (sumn_ext N (fun s => error_of p i b0 b X s * error_of p i b0 b X s) (fun s => error_of p i b0 b X s * error_of p i b0' b' X s + ((b0' - b0) * error_of p i b0 b X s + (error_of p i b0 b X s * of_others p i b' X s - error_of p i b0 b X s * of_others p i b X s)))).
    2:{ intros s Hs. unfold error_of. ring. }
    rewrite sumn_plus, sumn_plus, sumn_scal, sumn_minus, L0, O1, O2. ring. }
  intros N p i X b0 b b0' b' L L'. rewrite (H N p i X b0 b b0' b' L), (H N p i X b0' b' b0 b L'). apply sumn_ext. intros s Hs. ring.
Qed.
Lemma inflation_unique : forall N p i X v v', inflation N p i X v -> inflation N p i X v' -> v = v'.
Proof. intros N p i X v v' (b0 & b & L & _ & ->) (b0' & b' & L' & _ & ->). rewrite (errors_unique N p i X b0 b b0' b' L L'). reflexivity. Qed.
Lemma centred_sum : forall N x, (0 < N)%nat -> qn N * var N x = sumn N (fun s => (x s - mean N x) * (x s - mean N x)).
Proof. intros N x HN. unfold var, cov. field. intro C. apply (qn_nonzero N HN C). Qed.

Section Factors.
  Variables (ols : nat -> nat -> (nat -> nat -> Qc) -> nat -> nat -> Qc) (has_constant : nat -> nat -> (nat -> nat -> Qc) -> nat -> bool).
  Lemma vif_right : forall N p X i v, (0 < N)%nat -> least_squares N p i X 0 (ols N p X i) ->
    (if has_constant N p X i then True else mean N (fun s => X s i) = 0) -> inflation N p i X v -> vif ols has_constant N p X i = Some v.
  Proof.
    intros N p X i v HN L HM (b0 & b & L' & NZ & ->). unfold vif. cbv zeta.
    assert (E : sumn N (fun s => (X s i - sumn p (fun j => if (j =? i)%nat then 0 else ols N p X i j * X s j)) * (X s i - sumn p (fun j => if (j =? i)%nat then 0 else ols N p X i j * X s j))) = sumn N (fun s => error_of p i b0 b X s * error_of p i b0 b X s)).
    { rewrite <- (errors_unique N p i X 0 (ols N p X i) b0 b L L'). apply sumn_ext. intros s Hs. unfold error_of, of_others. ring. }
    rewrite E. destruct (qeqb (sumn N (fun s => error_of p i b0 b X s * error_of p i b0 b X s)) 0) eqn:T; [exfalso; apply NZ; apply Qc_eq_bool_correct; exact T|]. f_equal. f_equal. rewrite (centred_sum N _ HN).
    destruct (has_constant N p X i); [reflexivity|]. rewrite HM. apply sumn_ext. intros s Hs. ring.
  Qed.
  (** The factors are right when all variables have mean zero, ... *)
  Theorem C218_centred_partial : forall N p X i v, plain_least_squares ols N p X -> (0 < N)%nat -> (i < p)%nat -> (forall j, (j < p)%nat -> mean N (fun s => X s j) = 0) -> inflation N p i X v ->
    exists l, calc_vif ols has_constant false N p X = Ok l /\ nth_error l i = Some (i, Some v).
  Proof.
    intros N p X i v HO HN Hi HM V. exists (map (fun i => (i, vif ols has_constant N p X i)) (seq 0 p)). split; [reflexivity|].
    rewrite (map_nth_error _ i (seq 0 p) (d := i)) by (rewrite (nth_error_nth' _ 0%nat) by (rewrite seq_length; lia); rewrite seq_nth by lia; reflexivity). do 2 f_equal.
    apply vif_right; [exact HN| |destruct (has_constant N p X i); [exact Logic.I|apply HM; exact Hi]|exact V].
    assert (S0 : forall j, (j < p)%nat -> sumn N (fun s => X s j) = 0).
    { intros j Hj. pose proof (HM j Hj) as M. unfold mean in M. apply (f_equal (fun x => x * qn N)) in M. unfold Qcdiv in M. rewrite <- Qcmult_assoc, (Qcmult_comm (/ qn N)), Qcmult_inv_r, Qcmult_1_r in M by (apply qn_nonzero; exact HN). rewrite M. ring. }
    split; [|intros j Hj D; apply HO; assumption]. unfold error_of. rewrite sumn_minus, S0 by exact Hi. rewrite sumn_plus, (sumn_zero N (fun _ => 0)) by reflexivity. unfold of_others. rewrite sumn_swap, (sumn_zero p); [ring|].
    intros j Hj. destruct (j =? i)%nat; [apply sumn_zero; reflexivity|]. rewrite sumn_scal, S0 by exact Hj. ring.
  Qed.
  (** ... or when the other variables span the constant and statsmodels notices it. *)
  Theorem C218_constant_partial : forall N p X i v, plain_least_squares ols N p X -> (0 < N)%nat -> (i < p)%nat -> spans_one N p X i -> has_constant N p X i = true -> inflation N p i X v ->
    exists l, calc_vif ols has_constant false N p X = Ok l /\ nth_error l i = Some (i, Some v).
  Proof.
    intros N p X i v HO HN Hi (c & HC) T V. exists (map (fun i => (i, vif ols has_constant N p X i)) (seq 0 p)). split; [reflexivity|].
    rewrite (map_nth_error _ i (seq 0 p) (d := i)) by (rewrite (nth_error_nth' _ 0%nat) by (rewrite seq_length; lia); rewrite seq_nth by lia; reflexivity). do 2 f_equal.
    apply vif_right; [exact HN| |rewrite T; exact Logic.I|exact V]. split; [|intros j Hj D; apply HO; assumption].
    rewrite (sumn_ext N _ (fun s => sumn p (fun j => if (j =? i)%nat then 0 else c j * (error_of p i 0 (ols N p X i) X s * X s j)))).
    2:{ intros s Hs. rewrite <- (Qcmult_1_r (error_of _ _ _ _ _ _)) at 1. rewrite <- (HC s Hs). unfold of_others. rewrite <- sumn_scal. apply sumn_ext. intros j Hj. destruct (j =? i)%nat; ring. }
    rewrite sumn_swap. apply sumn_zero. intros j Hj. destruct (Nat.eqb_spec j i) as [->|D]; [apply sumn_zero; reflexivity|]. rewrite sumn_scal, HO by assumption. ring.
  Qed.
End Factors.
Print Assumptions C218_centred_partial.
Print Assumptions C218_constant_partial.
(** Called on an object, the method cannot be used at all. *)
Theorem C218_method_refuted : forall ols has_constant N p X, calc_vif ols has_constant true N p X = Err TypeError.
Proof. reflexivity. Qed.
Print Assumptions C218_method_refuted.
(** Two uncorrelated variables with mean 2: the factor is 1, 25/9 is reported, by every least-squares regression. *)
Definition vif_rows (s j : nat) : Qc := qz (nth j (nth s [[1; 1]; [1; 3]; [3; 1]; [3; 3]]%Z []) 0%Z).
Theorem C218_intercept_refuted : forall ols has_constant, plain_least_squares ols 4 2 vif_rows -> (forall i, has_constant 4%nat 2%nat vif_rows i = false) ->
  inflation 4 2 0 vif_rows 1 /\ exists l, calc_vif ols has_constant false 4 2 vif_rows = Ok l /\ nth_error l 0 = Some (0%nat, Some (qf 25 9)).
Proof.
  intros ols hc HO HC. split.
  - exists (qz 2), (fun _ => 0). split; [|split].
    + split; [apply Qc_is_canon; vm_compute; reflexivity|]. intros [|[|j]] Hj D; [congruence| |lia]. apply Qc_is_canon. vm_compute. reflexivity.
    + intro C. apply (f_equal this) in C. vm_compute in C. discriminate.
    + apply Qc_is_canon. vm_compute. reflexivity.
  - eexists. split; [reflexivity|]. cbn [seq map nth_error]. do 2 f_equal. unfold vif. rewrite HC. cbv zeta.
    pose proof (HO 0%nat 1%nat ltac:(lia) ltac:(lia) ltac:(lia)) as E. set (b := ols 4%nat 2%nat vif_rows 0%nat) in *.
    assert (H3 : qz 3 = 1 + 1 + 1) by (apply Qc_is_canon; vm_compute; reflexivity). assert (H1 : qz 1 = 1) by (apply Qc_is_canon; vm_compute; reflexivity).
    assert (B : b 1%nat = qf 4 5).
    { unfold error_of, of_others, sumn, sumf in E. cbn [seq qsum map fold_right Nat.eqb] in E. unfold vif_rows in E. cbn [nth] in E. rewrite H3, H1 in E.
      assert (E2 : (qz 16 - qz 20 * b 1%nat) = 0).
      { replace (qz 16) with ((1+1)*(1+1)*(1+1)*(1+1)) by (apply Qc_is_canon; vm_compute; reflexivity). replace (qz 20) with ((1+1)*(1+1)*(1+1+1+1+1)) by (apply Qc_is_canon; vm_compute; reflexivity). rewrite <- E. ring. }
      assert (Z20 : qz 20 <> 0) by (intro C; apply (f_equal this) in C; vm_compute in C; discriminate).
      assert (Q : qz 20 * b 1%nat = qz 16) by (apply (f_equal (fun x => qz 20 * b 1%nat + x)) in E2; rewrite Qcplus_0_r in E2; rewrite <- E2; ring).
      transitivity (qz 16 / qz 20); [rewrite <- Q; field; exact Z20|apply Qc_is_canon; vm_compute; reflexivity]. }
    unfold sumn, sumf. cbn [seq qsum map fold_right Nat.eqb]. rewrite B. unfold vif_rows. cbn [nth].
    match goal with |- (if ?t then _ else _) = _ => replace t with false by (vm_compute; reflexivity) end. f_equal. apply Qc_is_canon. vm_compute. reflexivity.
Qed.
Print Assumptions C218_intercept_refuted.
(** Regressions on two columns, and on the tables of the examples. *)
Definition one_slope (N p : nat) (X : nat -> nat -> Qc) (i j : nat) : Qc := sumn N (fun s => X s i * X s j) / sumn N (fun s => X s j * X s j).
Example C218_intercept_hypotheses : plain_least_squares one_slope 4 2 vif_rows.
Proof. intros [|[|i]] [|[|j]] Hi Hj D; try lia; try congruence; apply Qc_is_canon; vm_compute; reflexivity. Qed.
(** Mean zero, squared correlation 3/4: factor 4. *)
Definition centred_rows (s j : nat) : Qc := qz (nth j (nth s [[-1; -2]; [0; 1]; [1; 1]; [0; 0]]%Z []) 0%Z).
Example C218_centred_hypotheses : plain_least_squares one_slope 4 2 centred_rows /\ (forall j, (j < 2)%nat -> mean 4 (fun s => centred_rows s j) = 0) /\ inflation 4 2 0 centred_rows (qz 4) /\
  exists l, calc_vif one_slope (fun _ _ _ _ => false) false 4 2 centred_rows = Ok l /\ nth_error l 0 = Some (0%nat, Some (qz 4)).
Proof.
  assert (P : plain_least_squares one_slope 4 2 centred_rows) by (intros [|[|i]] [|[|j]] Hi Hj D; try lia; try congruence; apply Qc_is_canon; vm_compute; reflexivity).
  assert (M : forall j, (j < 2)%nat -> mean 4 (fun s => centred_rows s j) = 0) by (intros [|[|j]] Hj; [| |lia]; apply Qc_is_canon; vm_compute; reflexivity).
  assert (V : inflation 4 2 0 centred_rows (qz 4)).
  { exists 0, (fun _ => qf 1 2). split; [|split].
    - split; [apply Qc_is_canon; vm_compute; reflexivity|]. intros [|[|j]] Hj D; [congruence| |lia]. apply Qc_is_canon. vm_compute. reflexivity.
    - intro C. apply (f_equal this) in C. vm_compute in C. discriminate.
    - apply Qc_is_canon. vm_compute. reflexivity. }
  split; [exact P|]. split; [exact M|]. split; [exact V|]. apply C218_centred_partial; [exact P|lia|lia|exact M|exact V].
Qed.
(** With a column of ones added, the factor of the first variable of [vif_rows] is 1 as it should be. *)
Definition ones_rows (s j : nat) : Qc := if (j =? 2)%nat then 1 else vif_rows s j.
Definition ones_ols (N p : nat) (X : nat -> nat -> Qc) (i j : nat) : Qc := if (i =? 2)%nat then qf 2 9 else if (j =? 2)%nat then qz 2 else 0.
Example C218_constant_hypotheses : plain_least_squares ones_ols 4 3 ones_rows /\ spans_one 4 3 ones_rows 0 /\ inflation 4 3 0 ones_rows 1 /\
  exists l, calc_vif ones_ols (fun _ _ _ i => (i <? 2)%nat) false 4 3 ones_rows = Ok l /\ nth_error l 0 = Some (0%nat, Some 1).
Proof.
  assert (P : plain_least_squares ones_ols 4 3 ones_rows) by (intros [|[|[|i]]] [|[|[|j]]] Hi Hj D; try lia; try congruence; apply Qc_is_canon; vm_compute; reflexivity).
  assert (O : spans_one 4 3 ones_rows 0) by (exists (fun j => if (j =? 2)%nat then 1 else 0); intros [|[|[|[|s]]]] Hs; [| | | |lia]; apply Qc_is_canon; vm_compute; reflexivity).
  assert (V : inflation 4 3 0 ones_rows 1).
  { exists (qz 2), (fun _ => 0). split; [|split].
    - split; [apply Qc_is_canon; vm_compute; reflexivity|]. intros [|[|[|j]]] Hj D; [congruence| | |lia]; apply Qc_is_canon; vm_compute; reflexivity.
    - intro C. apply (f_equal this) in C. vm_compute in C. discriminate.
    - apply Qc_is_canon. vm_compute. reflexivity. }
  split; [exact P|]. split; [exact O|]. split; [exact V|]. apply C218_constant_partial; [exact P|lia|lia|exact O|reflexivity|exact V].
Qed.
