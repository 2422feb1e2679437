(** * Further theorems for C09, C11 and C72, added after mutation tests *)
From Coq Require Import List Arith Lia Bool ZArith QArith Qcanon Permutation.
From Verif Require Import Prelude Spec Lib SpecDirect ModelDirect ProofDirect ProofDirect2.
From Verif Require ModelParce ModelVAR ProofVAR.
Import ListNotations.
Open Scope nat_scope.

Lemma nansum_pos_iff : forall l : list num, (forall x, In x l -> x = None \/ x = Some 0%Qc \/ x = Some 1%Qc) ->
  (qltb 0 (nansum l) = true <-> In (Some 1%Qc) l).
Proof.
  intros l H. assert (NN : forall l : list num, (forall x, In x l -> x = None \/ x = Some 0%Qc \/ x = Some 1%Qc) -> (0 <= nansum l)%Qc).
  { intro k. induction k as [|a k IH]; intro Hk; [apply Qcle_refl|]. cbn. fold (nansum k). assert (I := IH (fun x Hx => Hk x (or_intror Hx))).
    destruct (Hk a (or_introl eq_refl)) as [-> |[-> | ->]]; cbn; [rewrite Qcplus_0_l; exact I|rewrite Qcplus_0_l; exact I|].
    apply Qcle_trans with (0 + 0)%Qc; [rewrite Qcplus_0_l; apply Qcle_refl|apply Qcplus_le_compat; [discriminate|exact I]]. }
  rewrite qltb_lt. induction l as [|a l IH]; [split; [intro Q; vm_compute in Q; discriminate|intros []]|].
  assert (H' : forall x, In x l -> x = None \/ x = Some 0%Qc \/ x = Some 1%Qc) by (intros x Hx; apply H; right; exact Hx).
  cbn. fold (nansum l). specialize (IH H'). destruct (H a (or_introl eq_refl)) as [-> |[-> | ->]]; cbn.
  - rewrite Qcplus_0_l, IH. split; [auto|intros [E|E]; [discriminate|exact E]].
  - rewrite Qcplus_0_l, IH. split; [auto|intros [E|E]; [discriminate|exact E]].
  - split; [auto|]. intros _. apply Qclt_le_trans with (1 + 0)%Qc; [reflexivity|]. apply Qcplus_le_compat; [apply Qcle_refl|apply NN; exact H'].
Qed.

(** C09.  Which variables compete for the next place under soft prior knowledge: the ones known to have no cause
    left, or, if there is none, the ones that are neither known to have a cause left nor known to be a sink;
    the variables that are known not to depend on any of them are treated as unrelated. *)
Theorem C09_soft_candidates : forall n pk U Uc Vj,
  (forall i j, i < n -> j < n -> pk i j = None \/ pk i j = Some 0%Qc \/ pk i j = Some 1%Qc) ->
  (forall x, In x U -> x < n) ->
  search_candidate (Soft pk) [] U = (Uc, Vj) ->
  let exogenous j := forall i, In i U -> i <> j -> pk j i = Some 0%Qc in
  let has_cause j := exists i, In i U /\ i <> j /\ pk j i = Some 1%Qc in
  let sink j := forall i, In i U -> i <> j -> pk i j = Some 0%Qc in
  ((exists j, In j U /\ exogenous j) -> forall j, In j Uc <-> In j U /\ exogenous j) /\
  (~ (exists j, In j U /\ exogenous j) -> forall j, In j Uc <-> In j U /\ ~ has_cause j /\ ~ sink j) /\
  (forall i, In i Vj <-> In i U /\ ~ In i Uc /\ forall k, In k Uc -> pk i k = Some 0%Qc).
Proof.
  intros n pk U Uc Vj H01 HU E exogenous has_cause sink.
  assert (RI : forall j i, In i (remove_nat j U) <-> In i U /\ i <> j) by (intros j i; rewrite remove_nat_In; split; intros [A B]; split; auto).
  assert (RZ : forall i l, In i U -> (forall k, In k l -> In k U) -> (row_sum_zero pk i l = true <-> forall k, In k l -> pk i k = Some 0%Qc)).
  { intros i l Hi Hl. unfold row_sum_zero. rewrite neqb_Some. split.
    - intros Q k Hk. apply (nsum_zero_inv _) with (x := pk i k) in Q; [exact Q| |apply in_map; exact Hk].
      intros y Hy. apply in_map_iff in Hy. destruct Hy as (w & <- & Hw). apply H01; apply HU; auto.
    - intro Q. apply nsum_all_zero. intros y Hy. apply in_map_iff in Hy. destruct Hy as (w & <- & Hw). apply Q. exact Hw. }
  assert (CZ : forall j, In j U -> (col_sum_zero pk j (remove_nat j U) = true <-> sink j)).
  { intros j Hj. unfold col_sum_zero. rewrite neqb_Some. split.
    - intros Q k Hk D. apply (nsum_zero_inv _) with (x := pk k j) in Q; [exact Q| |apply in_map_iff; exists k; split; [reflexivity|apply RI; auto]].
      intros y Hy. apply in_map_iff in Hy. destruct Hy as (w & <- & Hw). apply RI in Hw. apply H01; apply HU; tauto.
    - intro Q. apply nsum_all_zero. intros y Hy. apply in_map_iff in Hy. destruct Hy as (w & <- & Hw). apply RI in Hw. apply Q; tauto. }
  assert (EX : forall j, In j U -> (row_sum_zero pk j (remove_nat j U) = true <-> exogenous j)).
  { intros j Hj. rewrite (RZ j _ Hj); [|intros k Hk; apply RI in Hk; tauto]. unfold exogenous. split; intros Q k; [intros H1 H2; apply Q, RI; auto|intro Hk; apply RI in Hk; apply Q; tauto]. }
  assert (HC : forall j, In j U -> (qltb 0 (nansum (map (pk j) (remove_nat j U))) = true <-> has_cause j)).
  { intros j Hj. rewrite nansum_pos_iff; [|intros x Hx; apply in_map_iff in Hx; destruct Hx as (w & <- & Hw); apply RI in Hw; apply H01; apply HU; tauto].
    rewrite in_map_iff. unfold has_cause. split; [intros (w & Q & Hw); apply RI in Hw; exists w; tauto|intros (w & H1 & H2 & Q); exists w; split; [exact Q|apply RI; auto]]. }
  assert (VJ : forall i, In i Vj <-> In i U /\ ~ In i Uc /\ row_sum_zero pk i Uc = true).
  { intro i. cbn in E. injection E as <- <-. rewrite filter_In, andb_true_iff, negb_true_iff. split.
    - intros (H1 & H2 & H3). split; [exact H1|]. split; [|exact H3]. apply memb_notIn. exact H2.
    - intros (H1 & H2 & H3). split; [exact H1|]. split; [|exact H3]. apply memb_notIn. exact H2. }
  assert (UCU : (forall j, In j Uc <-> In j U /\ exogenous j) \/
                ((forall j, In j U -> ~ exogenous j) /\ forall j, In j Uc <-> In j U /\ ~ has_cause j /\ ~ sink j)).
  { cbn in E. injection E as E _. destruct (filter (fun j => row_sum_zero pk j (remove_nat j U)) U) as [|y l] eqn:EF.
    - right. split.
      + intros j Hj X. apply (EX j Hj) in X. assert (I : In j []); [|destruct I]. rewrite <- EF. apply filter_In. auto.
      + intro j. rewrite <- E, filter_In, negb_true_iff. split.
        * intros [Hj M]. apply memb_notIn in M. split; [exact Hj|]. split; intro Q; apply M, in_app_iff; [left|right]; apply filter_In; (split; [exact Hj|]); [apply HC|apply CZ]; assumption.
        * intros (Hj & N1 & N2). split; [exact Hj|]. apply memb_notIn. intro I. apply in_app_iff in I. destruct I as [I|I]; apply filter_In in I; destruct I as [_ I]; [apply HC in I|apply CZ in I]; auto.
    - left. intro j. rewrite <- E, <- EF, filter_In. split; intros [Hj Q]; (split; [exact Hj|]); apply (EX j Hj); exact Q. }
  assert (SUB : forall k, In k Uc -> In k U) by (intros k Hk; destruct UCU as [Q|[_ Q]]; apply Q in Hk; tauto).
  split; [|split].
  - intros (j & Hj & X). destruct UCU as [Q|[Q _]]; [exact Q|]. exfalso. exact (Q j Hj X).
  - intro N. destruct UCU as [Q|[_ Q]]; [|exact Q]. intro j. split; [intro I; exfalso; apply N; exists j; apply Q; exact I|].
    intros (Hj & N1 & N2). exfalso.
    (* Uc is empty only if U has no exogenous variable, and then the second case applies *)
    cbn in E. injection E as E _. destruct (filter (fun j => row_sum_zero pk j (remove_nat j U)) U) as [|y l] eqn:EF.
    + assert (I : In j Uc); [|apply N; exists j; apply Q; exact I]. rewrite <- E, filter_In, negb_true_iff. split; [exact Hj|]. apply memb_notIn. intro I. apply in_app_iff in I.
      destruct I as [I|I]; apply filter_In in I; destruct I as [_ I]; [apply HC in I|apply CZ in I]; auto.
    + apply N. exists y. assert (I : In y Uc) by (rewrite <- E; left; reflexivity). apply Q. exact I.
  - intro i. rewrite VJ. split; intros (H1 & H2 & H3); (split; [exact H1|]); (split; [exact H2|]); apply (RZ i Uc H1 SUB); exact H3.
Qed.
Print Assumptions C09_soft_candidates.
(** pk: x0 has no causes, x2 does not depend on x0 *)
Example C09_soft_candidates_example :
  search_candidate (Soft (fun i j => match i, j with 0, _ => Some 0%Qc | 2, 0 => Some 0%Qc | 1, 0 => Some 1%Qc | _, _ => None end)) [] [0; 1; 2] = ([0], [2]).
Proof. vm_compute. reflexivity. Qed.

(** C11.  A prior knowledge matrix of the wrong shape is rejected before anything is computed. *)
Theorem C11_wrong_prior_knowledge_shape : forall Col (residual : Col -> Col -> Col) gM n mode ds,
  mode <> NoPK -> mg_fit_order residual gM n false mode ds = Err ValueError.
Proof. intros Col residual gM n [|pk|pk] ds H; [congruence| |]; reflexivity. Qed.
Print Assumptions C11_wrong_prior_knowledge_shape.

(** C72.  Cyclic path constraints: the F-correlation variant silently returns all variables as one unordered
    block, whatever the data; the HSIC variant raises ValueError. *)
Definition pk_cycle : mat num := fun i j => if (i =? (j + 1) mod 3) then Some 1%Qc else None.
Theorem C72_cyclic_constraints : forall hsic2 fcorr m2log sf thr ind_corr lasso,
  (exists B, ModelParce.parce_fit hsic2 fcorr m2log sf thr ind_corr ModelParce.Fcorr lasso 3 (Some pk_cycle) true
     = Ok ([ModelParce.Block [0; 1; 2]], B)) /\
  ModelParce.parce_fit hsic2 fcorr m2log sf thr ind_corr ModelParce.Hsic lasso 3 (Some pk_cycle) true = Err ValueError.
Proof.
  intros hsic2 fcorr m2log sf thr ind_corr lasso. assert (X : extract_partial_orders 3 pk_cycle = Ok [(2, 0); (0, 1); (1, 2)]) by (vm_compute; reflexivity).
  unfold ModelParce.parce_fit. rewrite X. cbn -[ModelParce.parce_adjacency]. split; [eexists; reflexivity|reflexivity].
Qed.
Print Assumptions C72_cyclic_constraints.

(** C49.  Fewer coefficient matrices than the order asks for: IndexError. *)
Theorem C49_too_few_coefficients : forall n psi0 phis thetas p q,
  length phis < p \/ length thetas < q -> ModelVAR.psi_omega n psi0 phis thetas p q = Err IndexError.
Proof.
  assert (C : forall k l, (exists l', ModelVAR.take_coefs k l = Ok l') \/ ModelVAR.take_coefs k l = Err IndexError).
  { induction k as [|k IH]; intro l; [left; eexists; reflexivity|]. destruct l as [|x l]; [right; reflexivity|].
    cbn [ModelVAR.take_coefs]. destruct (IH l) as [(l' & ->)| ->]; [left; eexists; reflexivity|right; reflexivity]. }
  intros n psi0 phis thetas p q [H|H]; unfold ModelVAR.psi_omega.
  - rewrite (ProofVAR.take_coefs_short p phis H). reflexivity.
  - destruct (C p phis) as [(l' & ->)| ->]; [|reflexivity]. cbn [bind]. rewrite (ProofVAR.take_coefs_short q thetas H). reflexivity.
Qed.
Print Assumptions C49_too_few_coefficients.
Example C49_too_few_example : ModelVAR.psi_omega 1 (fun _ _ => 0%Qc) [fun _ _ => 1%Qc] [] 1 1 = Err IndexError.
Proof. reflexivity. Qed.
