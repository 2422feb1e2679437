(** * Property theorems: the rounds of HighDimDirectLiNGAM (C119) and its adjacency matrix. *)
From Coq Require Import List Arith Bool ZArith QArith Qcanon Lia Permutation Sorted.
From Verif Require Import Prelude Spec SpecHighDim Lib ModelDirect ModelRCD ModelHighDim ProofDirect ProofDirect2 ProofHighDim ProofLim2 ProofHighDim2.
Import ListNotations.
Open Scope nat_scope.

(** ** C119 *)
(** Statistics start at 100000 off the diagonal, the cut-off at 0.  Every round updates the statistics
    of the remaining variables as described by [round_stats] (first round: raw columns; later rounds:
    residuals on the last placed variable and a subset of the placed variables with a statistic above
    the cut-off), places the first variable whose largest statistic is smallest, and raises the
    cut-off to alpha times that value if it is larger ([round_choice]). *)
Theorem C119_rounds : forall tau0 tau enum J alpha, (forall l, Permutation (enum l) l) ->
  forall n K, hd_order tau0 tau enum J alpha true n = Ok K ->
  exists (T : nat -> mat Qc) (c : nat -> Qc),
    (forall i j, T 0 i j = if i =? j then 0%Qc else qz 100000) /\ c 0 = 0%Qc /\
    forall k, k + 1 < n ->
      let theta := firstn k K in
      let psi := left_over (seq 0 n) theta in
      round_stats tau0 tau J theta psi (T k) (c k) (T (k + 1)) /\
      round_choice alpha psi (T (k + 1)) (c k) (c (k + 1)) (nth k K 0).
Proof.
  intros tau0 tau enum J alpha HE n K H. unfold hd_order in H.
  destruct (hd_loop_run tau0 tau enum J alpha HE n [] (seq 0 n) (fun i j => if i =? j then 0%Qc else qz 100000) 0%Qc K) as (K' & T & c & E & L & T0 & c0 & R).
  - apply seq_NoDup.
  - apply seq_sorted.
  - intros i j. destruct (i =? j); vm_compute; discriminate.
  - exact H.
  - cbn [app] in E. subst K'. exists T, c. split; [exact T0|]. split; [exact c0|]. intros k Hk. rewrite seq_length in R. rewrite Nat.add_1_r. apply (R k Hk).
Qed.
Print Assumptions C119_rounds.

Definition ex_tau0 (i j : nat) : Qc := if i =? 1 then qf 1 10 else qn (i + j).
Definition ex_tau (i : nat) (cond : list nat) (j : nat) : Qc := if i =? 2 then 0%Qc else qn (i + j + length cond).
Example C119_example : (forall l : list nat, Permutation (id l) l) /\ hd_order ex_tau0 ex_tau (fun l => l) 3 (qf 1 2) true 4 = Ok [1; 2; 0; 3].
Proof. split; [intro l; apply Permutation_refl|vm_compute; reflexivity]. Qed.

(** ** C40: which regression the adjacency matrix comes from *)
(** With at most as many samples as variables the penalised regression with cross-validation is used,
    otherwise the one with the information criterion; without estimate_adj_mat there is no matrix. *)
Theorem C40_regression_choice : forall tau0 tau enum J alpha lasso lassocv ns n K B,
  hd_fit tau0 tau enum J alpha true lasso lassocv ns n true = Ok (K, B) ->
  exists M, B = Some M /\ forall t i, nth_error K t = Some i -> forall j,
    (~ In j (firstn t K) -> M i j = Some 0%Qc) /\
    (In j (firstn t K) -> (ns <= n -> M i j = lassocv (firstn t K) i j) /\ (n < ns -> M i j = lasso (firstn t K) i j)).
Proof.
  intros tau0 tau enum J alpha lasso lassocv ns n K B. unfold hd_fit. destruct (hd_order_ok tau0 tau enum J alpha true n) as (K0 & E & HO). rewrite E. cbn [bind].
  intros [= <- <-]. eexists. split; [reflexivity|]. intros t i Ht j. apply is_order_NoDup in HO.
  apply nth_error_split in Ht. destruct Ht as (l1 & l2 & EK & L). subst t.
  rewrite (adjacency_row _ None K0 l1 i l2 j EK HO). cbn [predictors_of]. rewrite EK, firstn_app, Nat.sub_diag, firstn_all, app_nil_r. split.
  - intro N. apply memb_notIn in N. rewrite N. reflexivity.
  - intro I. apply memb_In in I. rewrite I. destruct (Nat.leb_spec ns n); split; intro; try lia; reflexivity.
Qed.
Print Assumptions C40_regression_choice.
Example C40_regression_example : exists K B, hd_fit ex_tau0 ex_tau (fun l => l) 3 (qf 1 2) true (fun _ _ _ => Some 0%Qc) (fun _ _ _ => Some 1%Qc) 4 4 true = Ok (K, Some B) /\ B 2 1 = Some 1%Qc.
Proof. do 2 eexists. split; [unfold hd_fit; rewrite (proj2 C119_example); reflexivity|reflexivity]. Qed.
