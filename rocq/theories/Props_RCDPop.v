(** * RCD on data that follow a linear acyclic model *)
From Coq Require Import List Arith Bool ZArith QArith Qcanon Lia.
From Verif Require Import Prelude Spec Lib SpecPop SpecRCDPop ModelRCD ModelRCDPop ProofRCDPop4 OlsGS.
Import ListNotations.
Open Scope nat_scope.

(** ** C142: without hidden variables the ancestor sets and the adjacency matrix are exact *)
Theorem C142_rcd_recovers_model :
  forall N n B e x ols icpt shapiro corr ind mlcoef maxl mlhsicr,
  linear_model N n B e x -> no_cancelling N n B e x ->
  solves_least_squares N ols -> ideal_normality N n e shapiro -> ideal_correlation N n e corr -> ideal_independence N n e ind ->
  maxl = 1 \/ maxl = 2 ->
  exists M A, rcd_data_fit ols icpt shapiro corr ind mlcoef x n maxl mlhsicr = Ok (M, A) /\
    (forall i j, M i j = true <-> ancestor n B j i) /\
    (forall i j, i < n -> j < n -> A i j = Some (B i j)).
Proof. exact rcd_data_correct. Qed.
Print Assumptions C142_rcd_recovers_model.

(** ** C143: with hidden variables *)
(** With max_explanatory_num = 1 only true ancestors are recorded, whatever variables are hidden:
    the data contain the first [n] of the [m] variables of the model. *)
Theorem C143_pairs_sound_with_hidden_partial :
  forall N n m B e x ols icpt shapiro corr ind mlcoef mlhsicr M A,
  n <= m -> linear_model N m B e x -> no_cancelling N m B e x ->
  solves_least_squares N ols -> ideal_correlation N m e corr -> ideal_independence N m e ind ->
  rcd_data_fit ols icpt shapiro corr ind mlcoef x n 1 mlhsicr = Ok (M, A) ->
  forall i j, M i j = true -> i < n /\ j < n /\ ancestor m B j i.
Proof. exact rcd_data_sound_pairs. Qed.
Print Assumptions C143_pairs_sound_with_hidden_partial.

(** Eight rows; error k is column k+1 of a Hadamard matrix. *)
Definition had (k : nat) : sample := tab 8 (fun r =>
  let b := S k in
  if xorb (xorb (Nat.odd b && Nat.odd r) (Nat.odd (b / 2) && Nat.odd (r / 2))) (Nat.odd (b / 4) && Nat.odd (r / 4)) then qz (-1) else 1%Qc).
(** Observed 0, 1, 2; hidden 3 -> 0, 3 -> 1; 0 -> 2. *)
Definition hx_E : list (nat * nat) := [(3, 0); (3, 1); (0, 2)].
Definition hx_CL : list (nat * nat) := [(3, 0); (3, 1); (0, 2); (3, 2)].
Definition hx_x (i : nat) : sample := tab 8 (fun r => match i with
  | 0 => had 3 r + had 0 r | 1 => had 3 r + had 1 r | 2 => had 3 r + had 0 r + had 2 r | _ => had i r end)%Qc.
Lemma hx_check : model_check 8 4 hx_E hx_CL had hx_x = true.
Proof. vm_compute. reflexivity. Qed.
Definition hx_fit (maxl : nat) := rcd_data_fit (gs 8) (fun _ _ _ => 0%Qc) (fun _ => true) (ex_corr 8) (ex_ind 8 4 had) (fun _ _ _ _ => 0%Qc) hx_x 3 maxl true.
Definition show_sets (n : nat) (r : result (sets * mat num)) : list (list nat) :=
  match r with Ok (M, _) => map (fun i => filter (M i) (seq 0 n)) (seq 0 n) | Err _ => [] end.
Definition show_adj (n : nat) (r : result (sets * mat num)) : list (list (option Q)) :=
  match r with Ok (_, A) => map (fun i => map (fun j => match A i j with Some v => Some (this v) | None => None end) (seq 0 n)) (seq 0 n) | Err _ => [] end.
(** The default max_explanatory_num = 2 records 1 as an ancestor of 2, which it is not. *)
Theorem C143_hidden_confounder_refuted :
  ~ (forall N n m B e x ols icpt shapiro corr ind mlcoef mlhsicr M A,
     n <= m -> linear_model N m B e x -> no_cancelling N m B e x ->
     solves_least_squares N ols -> ideal_normality N m e shapiro -> ideal_correlation N m e corr -> ideal_independence N m e ind ->
     rcd_data_fit ols icpt shapiro corr ind mlcoef x n 2 mlhsicr = Ok (M, A) ->
     forall i j, M i j = true -> ancestor m B j i).
Proof.
  intro C. destruct (model_check_spec 8 4 hx_E hx_CL had hx_x hx_check) as (LM & NC & AN).
  assert (S : show_sets 3 (hx_fit 2) = [[]; []; [0; 1]]) by (vm_compute; reflexivity).
  destruct (hx_fit 2) as [[M A]|?] eqn:E; [|discriminate].
  assert (Q : M 2 1 = true).
  { assert (I : In 1 (filter (M 2) (seq 0 3))) by (cbn [show_sets map seq] in S; injection S as _ _ S3; change (In 1 (filter (M 2) [0; 1; 2])); cbn [filter]; rewrite S3; right; left; reflexivity).
    apply filter_In in I. apply I. }
  assert (A1 : ancestor 4 (B_of hx_E) 1 2).
  { apply (C 8 3 4 (B_of hx_E) had hx_x (gs 8) (fun _ _ _ => 0%Qc) (fun _ => true) (ex_corr 8) (ex_ind 8 4 had) (fun _ _ _ _ => 0%Qc) true M A); try assumption.
    - lia.
    - apply gs_solves. lia.
    - apply ex_normality_ideal.
    - apply ex_corr_ideal.
    - apply ex_ind_ideal. }
  apply AN in A1. cbn in A1. intuition discriminate.
Qed.
Print Assumptions C143_hidden_confounder_refuted.
(** In this example the later steps still give the right coefficients, and NaN for the confounded pair. *)
Example C143_hidden_adjacency :
  show_sets 3 (hx_fit 2) = [[]; []; [0; 1]] /\ show_sets 3 (hx_fit 1) = [[]; []; [0]] /\
  show_adj 3 (hx_fit 2) = [[Some 0%Q; None; Some 0%Q]; [None; Some 0%Q; Some 0%Q]; [Some 1%Q; Some 0%Q; Some 0%Q]].
Proof. vm_compute. auto. Qed.

(** Five observed variables, none hidden: 4 -> 2, 4 -> 3, 0 -> 2, 0 -> 3, 0 -> 1. *)
Definition fx_E : list (nat * nat) := [(4, 2); (4, 3); (0, 2); (0, 3); (0, 1)].
Definition fx_x (i : nat) : sample := tab 8 (fun r => match i with
  | 1 => had 0 r + had 1 r | 2 => had 0 r + had 4 r + had 2 r | 3 => had 0 r + had 4 r + had 3 r | _ => had i r end)%Qc.
Lemma fx_check : model_check 8 5 fx_E fx_E had fx_x = true.
Proof. vm_compute. reflexivity. Qed.
Definition fx_fit (maxl : nat) := rcd_data_fit (gs 8) (fun _ _ _ => 0%Qc) (fun _ => true) (ex_corr 8) (ex_ind 8 5 had) (fun _ _ _ _ => 0%Qc) fx_x 5 maxl true.
(** max_explanatory_num = 3 records 2 and 3 as ancestors of 1, although every variable of the model is observed. *)
Theorem C143_three_explanatory_refuted :
  ~ (forall N n B e x ols icpt shapiro corr ind mlcoef mlhsicr M A,
     linear_model N n B e x -> no_cancelling N n B e x ->
     solves_least_squares N ols -> ideal_normality N n e shapiro -> ideal_correlation N n e corr -> ideal_independence N n e ind ->
     rcd_data_fit ols icpt shapiro corr ind mlcoef x n 3 mlhsicr = Ok (M, A) ->
     forall i j, M i j = true -> ancestor n B j i).
Proof.
  intro C. destruct (model_check_spec 8 5 fx_E fx_E had fx_x fx_check) as (LM & NC & AN).
  assert (S : show_sets 5 (fx_fit 3) = [[]; [0; 2; 3]; [0; 4]; [0; 4]; []]) by (vm_compute; reflexivity).
  destruct (fx_fit 3) as [[M A]|?] eqn:E; [|discriminate].
  assert (Q : M 1 2 = true).
  { assert (I : In 2 (filter (M 1) (seq 0 5))) by (unfold show_sets in S; change (map (fun i => filter (M i) (seq 0 5)) [0; 1; 2; 3; 4] = [[]; [0; 2; 3]; [0; 4]; [0; 4]; []]) in S; pose proof (f_equal (fun l => nth 1 l []) S) as S1; cbn [map nth] in S1; rewrite S1; right; left; reflexivity).
    apply filter_In in I. apply I. }
  assert (A1 : ancestor 5 (B_of fx_E) 2 1).
  { apply (C 8 5 (B_of fx_E) had fx_x (gs 8) (fun _ _ _ => 0%Qc) (fun _ => true) (ex_corr 8) (ex_ind 8 5 had) (fun _ _ _ _ => 0%Qc) true M A); try assumption.
    - apply gs_solves. lia.
    - apply ex_normality_ideal.
    - apply ex_corr_ideal.
    - apply ex_ind_ideal. }
  apply AN in A1. cbn in A1. intuition discriminate.
Qed.
Print Assumptions C143_three_explanatory_refuted.

(** The same five variables meet the hypotheses of C142; the default setting finds the model. *)
Example C142_example :
  (linear_model 8 5 (B_of fx_E) had fx_x /\ no_cancelling 8 5 (B_of fx_E) had fx_x /\
   solves_least_squares 8 (gs 8) /\ ideal_normality 8 5 had (fun _ => true) /\ ideal_correlation 8 5 had (ex_corr 8) /\ ideal_independence 8 5 had (ex_ind 8 5 had)) /\
  show_sets 5 (fx_fit 2) = [[]; [0]; [0; 4]; [0; 4]; []] /\
  nth 2 (show_adj 5 (fx_fit 2)) [] = [Some 1%Q; Some 0%Q; Some 0%Q; Some 0%Q; Some 1%Q].
Proof.
  destruct (model_check_spec 8 5 fx_E fx_E had fx_x fx_check) as (LM & NC & _). split.
  - split; [exact LM|]. split; [exact NC|]. split; [apply gs_solves; lia|]. split; [apply ex_normality_ideal|]. split; [apply ex_corr_ideal|apply ex_ind_ideal].
  - vm_compute. auto.
Qed.
