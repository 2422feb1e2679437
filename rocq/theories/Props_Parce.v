(** * Properties of BottomUpParceLiNGAM (C38, C39, C72-C74) *)
From Coq Require Import List Arith Lia Bool ZArith QArith Qcanon Permutation.
From Verif Require Import Prelude Spec Lib SpecDirect ModelDirect ModelParce ProofParce ProofParce2.
Import ListNotations.
Open Scope nat_scope.

(** C38.  Structure of causal_order_ and adjacency_matrix_, for every outcome of the tests.
    [lasso] answers numbers (the regressions do not return NaN). *)
Theorem C38_parce_order_structure :
  forall hsic2 fcorr m2log sf thr ind_corr mode lasso n pk ok order B, 1 <= n ->
    (forall ps t p, lasso ps t p <> None) ->
    parce_fit hsic2 fcorr m2log sf thr ind_corr mode lasso n pk ok = Ok (order, B) ->
    exists block K, (block = [] \/ 2 <= length block) /\
      order = (match block with [] => [] | _ => [Block block] end) ++ map Single K /\
      is_order n (block ++ K) /\
      (forall i j, i < n -> j < n -> (B i j = None <-> i <> j /\ In i block /\ In j block)) /\
      (forall i j, i < n -> j < n -> B i j <> None -> B i j <> Some 0%Qc ->
         In i K /\ precedes (block ++ K) j i).
Proof.
  intros. edestruct parce_structure as [block [K [H1' [H2' [H3' [H4' [H5' _]]]]]]]; try eassumption.
  exists block, K. repeat (split; [assumption|]). intros i j Hi Hj N Z.
  destruct (H5' i j Hi Hj N Z) as [A [C _]]. tauto.
Qed.
Print Assumptions C38_parce_order_structure.

(** Fitting at least two variables ends with a result or a ValueError; one variable divides by 0. *)
Theorem C38_parce_outcomes :
  forall hsic2 fcorr m2log sf thr ind_corr mode lasso n pk ok, 1 <= n ->
    (exists r, parce_fit hsic2 fcorr m2log sf thr ind_corr mode lasso n pk ok = Ok r) \/
    parce_fit hsic2 fcorr m2log sf thr ind_corr mode lasso n pk ok = Err ValueError \/
    (n = 1 /\ parce_fit hsic2 fcorr m2log sf thr ind_corr mode lasso n pk ok = Err ZeroDivisionError).
Proof. exact parce_outcomes. Qed.
Print Assumptions C38_parce_outcomes.

(** With proper statistics and satisfiable prior knowledge the fit succeeds. *)
Theorem C38_parce_succeeds :
  forall hsic2 fcorr m2log sf thr ind_corr mode lasso n pk, 2 <= n ->
    (mode = Hsic -> forall t ps i, exists s p, hsic2 t ps i = (Some s, Some p) /\ p <> 0%Qc) ->
    (mode = Fcorr -> forall t ps i, exists c, fcorr t ps i = Some c) ->
    (forall m, pk = Some m -> orderable n m) ->
    exists r, parce_fit hsic2 fcorr m2log sf thr ind_corr mode lasso n pk true = Ok r.
Proof.
  intros. apply parce_succeeds; try assumption. unfold finite_stats. destruct mode; auto.
Qed.
Print Assumptions C38_parce_succeeds.

(** A run that ends with a block: p-values 1/2 for target 3, 1/1000 otherwise. *)
Definition ex_hsic2 : nat -> list nat -> nat -> num * num :=
  fun t ps i => if t =? 3 then (Some 0%Qc, Some (qf 1 2)) else (Some 1%Qc, Some (qf 1 1000)).
Definition ex_m2log (p : Qc) : Qc := if qltb (qf 1 10) p then 1%Qc else qz 14.
Definition ex_sf (s : ext) (df : nat) : num :=
  Some (if ext_lt s (Fin (qz 10)) then qf 1 2 else qf 1 1000).
Definition ex_plasso : list nat -> nat -> nat -> num := fun ps t p => Some (qn (t + p)).

Example C38_example :
  exists order B, parce_fit ex_hsic2 (fun _ _ _ => None) ex_m2log ex_sf (qf 1 30) (qf 1 2) Hsic ex_plasso 4 None true
    = Ok (order, B) /\ order = [Block [0; 1; 2]; Single 3] /\ B 0 1 = None /\ B 3 2 <> Some 0%Qc.
Proof.
  do 2 eexists. split; [vm_compute; reflexivity|]. split; [reflexivity|]. split; [reflexivity|].
  vm_compute. discriminate.
Qed.

(** C39, refuted.  If every p-value is exactly 0, then for any three or more variables, whatever
    the thresholds, the column order itself is returned as a complete causal order. *)
Theorem C39_all_p_values_zero_accepts_column_order_refuted :
  forall hsic2 fcorr m2log sf thr ind_corr lasso n, 3 <= n ->
    (forall t ps i, snd (hsic2 t ps i) = Some 0%Qc) ->
    exists B, parce_fit hsic2 fcorr m2log sf thr ind_corr Hsic lasso n None true
              = Ok (map Single (seq 0 n), B).
Proof. intros. apply parce_underflow; assumption. Qed.
Print Assumptions C39_all_p_values_zero_accepts_column_order_refuted.

(** What holds: if the p-values are positive numbers and all of them (and all combined ones) are
    below the threshold, every variable is reported in the unordered block. *)
Theorem C39_positive_rejections_give_one_block_partial :
  forall hsic2 fcorr m2log sf thr ind_corr lasso n, 2 <= n ->
    (forall t ps i, exists s p, hsic2 t ps i = (Some s, Some p) /\ p <> 0%Qc /\ (p < thr)%Qc) ->
    (forall s df, exists p, sf s df = Some p /\ (p < thr)%Qc) ->
    exists B, parce_fit hsic2 fcorr m2log sf thr ind_corr Hsic lasso n None true
              = Ok ([Block (seq 0 n)], B).
Proof. intros. apply parce_all_reject; assumption. Qed.
Print Assumptions C39_positive_rejections_give_one_block_partial.

Example C39_example_zero : forall t ps i,
  snd ((fun (_ : nat) (_ : list nat) (_ : nat) => (Some 1%Qc, Some 0%Qc)) t ps i) = Some 0%Qc.
Proof. reflexivity. Qed.
Example C39_example_positive :
  exists p, p <> 0%Qc /\ (p < qf 1 30)%Qc.
Proof.
  exists (qf 1 1000). split; [intro E; apply (f_equal this) in E; vm_compute in E; discriminate|].
  apply qltb_lt. vm_compute. reflexivity.
Qed.

(** C72.  Prior knowledge: whenever "a must precede b", a stands before b in the result, or both
    are in the unordered block; and no edge excluded by the prior knowledge is reported. *)
Theorem C72_parce_respects_prior_knowledge :
  forall hsic2 fcorr m2log sf thr ind_corr mode lasso n pk ok order B, 1 <= n ->
    (forall ps t p, lasso ps t p <> None) ->
    parce_fit hsic2 fcorr m2log sf thr ind_corr mode lasso n (Some pk) ok = Ok (order, B) ->
    (forall a b, a < n -> b < n -> must_precede pk a b ->
       precedes (flatten order) a b \/
       exists block, In (Block block) order /\ In a block /\ In b block) /\
    (forall i j, i < n -> j < n -> B i j <> None -> B i j <> Some 0%Qc -> pk i j <> Some 0%Qc).
Proof.
  intros. edestruct parce_structure as [block [K [H1' [H2' [H3' [H4' [H5' H6']]]]]]]; try eassumption.
  assert (FL : flatten order = block ++ K).
  { rewrite H2', flatten_app, flatten_singles. destruct block; [reflexivity|].
    cbn [block_items flatten flat_map]. rewrite app_nil_r. reflexivity. }
  split.
  - intros a b Ha Hb M. destruct (H6' pk a b eq_refl Ha Hb M) as [[A1 A2]|P].
    + right. exists block. split; [|tauto]. rewrite H2'. destruct block; [destruct A1|]. left. reflexivity.
    + left. rewrite FL. exact P.
  - intros i j Hi Hj N Z. destruct (H5' i j Hi Hj N Z) as [_ [_ Q]]. apply (Q pk eq_refl).
Qed.
Print Assumptions C72_parce_respects_prior_knowledge.

Definition ex_pk : mat num := fun i j => if (i =? 1) && (j =? 0) then Some 1%Qc else None.
(** Tests that reject whenever a variable is regressed on two or more others. *)
Definition ex_small : nat -> list nat -> nat -> num * num :=
  fun t ps i => if 2 <=? length ps then (Some 1%Qc, Some (qf 1 1000)) else (Some 0%Qc, Some (qf 1 2)).

Example C72_example :
  exists order B, parce_fit ex_small (fun _ _ _ => None) ex_m2log ex_sf (qf 1 30) (qf 1 2) Hsic ex_plasso 3
    (Some ex_pk) true = Ok (order, B) /\ must_precede ex_pk 0 1 /\ order = [Single 2; Single 0; Single 1].
Proof. do 2 eexists. split; [vm_compute; reflexivity|]. split; [left; reflexivity|reflexivity]. Qed.

(** C73, refuted.  Each variable declared last was tested against all remaining variables.  With
    prior knowledge it is only tested against the other candidates: here every regression on both
    other variables is rejected (without prior knowledge all three stay unordered), but stating
    "0 precedes 1" makes the fit return a complete order. *)
Theorem C73_sink_tested_against_all_remaining_refuted :
  exists hsic2 m2log sf thr pk B B' order,
    (forall t ps i, 2 <= length ps -> exists p, snd (hsic2 t ps i) = Some p /\ (p < thr)%Qc) /\
    orderable 3 pk /\
    parce_fit hsic2 (fun _ _ _ => None) m2log sf thr thr Hsic ex_plasso 3 None true = Ok ([Block [0; 1; 2]], B) /\
    parce_fit hsic2 (fun _ _ _ => None) m2log sf thr thr Hsic ex_plasso 3 (Some pk) true = Ok (order, B') /\
    order = [Single 2; Single 0; Single 1].
Proof.
  exists ex_small, ex_m2log, ex_sf, (qf 1 30), ex_pk. do 3 eexists. split; [|split; [|split; [|split]]].
  - intros t ps i L. unfold ex_small. apply Nat.leb_le in L. rewrite L. eexists. split; [reflexivity|].
    apply qltb_lt. vm_compute. reflexivity.
  - exists [0; 1; 2]. split; [apply Permutation_refl|]. intros a b Ha Hb [M|[M _]].
    + unfold ex_pk in M. destruct ((b =? 1) && (a =? 0)) eqn:E; [|discriminate].
      apply andb_true_iff in E. destruct E as [E1 E2]. apply Nat.eqb_eq in E1, E2. subst.
      exists [], [], [2]. reflexivity.
    + unfold ex_pk in M. destruct ((a =? 1) && (b =? 0)); discriminate.
  - vm_compute. reflexivity.
  - vm_compute. reflexivity.
  - reflexivity.
Qed.
Print Assumptions C73_sink_tested_against_all_remaining_refuted.

(** C74, refuted.  A fit that raises leaves the matrix of the previous data in place. *)
Theorem C74_failed_refit_leaves_stale_matrix_refuted :
  forall hsic2 fcorr m2log sf thr ind_corr mode lasso n1 pk ok o order B,
    parce_fit hsic2 fcorr m2log sf thr ind_corr mode lasso n1 pk ok = Ok (order, B) ->
    let o1 := parce_refit o (Ok (order, B)) in
    (* refit to a single column *)
    let o2 := parce_refit o1 (parce_fit hsic2 fcorr m2log sf thr ind_corr mode lasso 1 None ok) in
    po_order o2 = None /\ po_adjacency o2 = Some B.
Proof. intros. split; reflexivity. Qed.
Print Assumptions C74_failed_refit_leaves_stale_matrix_refuted.
