(** * Property theorems: queries on fitted RCD, BottomUpParceLiNGAM and MultiGroupDirectLiNGAM models,
    and the p-values of independence between error variables. *)
From Coq Require Import List Arith Lia Bool QArith Qcanon Permutation.
From Verif Require Import Prelude Spec SpecPop Lib LibMat ModelDirect ProofDirect2 ModelParce ModelPaths SpecPaths ProofPaths
  ModelTotal ProofTotal ProofPop ProofPop2 ProofPop3 ModelQuery ProofQuery Props_Pop.
Import ListNotations.
Open Scope nat_scope.

(** ** C115 *)
(** RCD: a source with an unknown incoming edge has effect NaN; if its row has the right parents, the effect
    is the true total effect.  The warning is given exactly when the target is an ancestor of the source. *)
Theorem C115_rcd_effect :
  forall N n B e x A T ols M from to_,
  linear_model N n B e x -> exact_regression N n x ols -> total_effects n B T -> from < n -> to_ < n ->
  let r := rcd_estimate_total_effect ols n M A from to_ in
  ((exists j, j < n /\ A from j = None) -> fst r = None) /\
  ((forall j, j < n -> exists w, A from j = Some w /\ (w = 0%Qc <-> B from j = 0%Qc)) -> fst r = Some (T to_ from)) /\
  (snd r = true <-> M from to_ = true).
Proof.
  intros N n B e x A T ols M f t LM REG HT Hf Ht r. unfold r, rcd_estimate_total_effect. cbn [fst snd].
  split; [|split].
  - intro H. apply row_has_nan_iff in H. rewrite H. reflexivity.
  - intro H. replace (row_has_nan n A f) with false; [apply (predictors_effect N n B e x A T ols f t); assumption|].
    symmetry. apply not_true_is_false. intro X. apply row_has_nan_iff in X. destruct X as (j & Hj & E). destruct (H j Hj) as (w & Ew & _). congruence.
  - reflexivity.
Qed.
Print Assumptions C115_rcd_effect.
(** BottomUpParceLiNGAM: the same; the warning is given exactly when the item of the target comes before that of
    the source, so never between members of one block. *)
Theorem C115_parce_effect :
  forall N n B e x A T ols order from to_,
  linear_model N n B e x -> exact_regression N n x ols -> total_effects n B T ->
  is_order n (flatten order) -> from < n -> to_ < n ->
  exists v w, parce_estimate_total_effect ols n order A from to_ = Ok (v, w) /\
  ((exists j, j < n /\ A from j = None) -> v = None) /\
  ((forall j, j < n -> exists u, A from j = Some u /\ (u = 0%Qc <-> B from j = 0%Qc)) -> v = Some (T to_ from)) /\
  (w = true <-> exists l r, order = l ++ r /\ In to_ (flatten l) /\ In from (flatten r)).
Proof.
  intros N n B e x A T ols order f t LM REG HT OK Hf Ht.
  assert (IK : forall i, i < n -> In i (flatten order)) by (intros i Hi; apply (Permutation_in _ (Permutation_sym OK)), in_seq; lia).
  assert (ND : NoDup (flatten order)) by (apply (Permutation_NoDup (Permutation_sym OK)), seq_NoDup).
  unfold parce_estimate_total_effect.
  destruct (item_pos f order) as [a|] eqn:Ea; [|apply item_pos_none in Ea; contradiction (Ea (IK f Hf))].
  destruct (item_pos t order) as [b|] eqn:Eb; [|apply item_pos_none in Eb; contradiction (Eb (IK t Ht))].
  eexists. eexists. split; [reflexivity|].
  pose proof (C115_rcd_effect N n B e x A T ols (fun _ _ => false) f t LM REG HT Hf Ht) as (H1 & H2 & _).
  split; [exact H1|]. split; [exact H2|]. rewrite Nat.ltb_lt. apply item_pos_lt; assumption.
Qed.
Print Assumptions C115_parce_effect.
Theorem C115_parce_effect_by_paths :
  forall n A order from to_, 2 <= n -> is_order n (flatten order) -> from < n -> to_ < n -> from <> to_ ->
  acyclic (edge_of n (denan A)) ->
  exists v w, parce_estimate_total_effect2 n order A from to_ = Ok (v, w) /\
  ((exists j, j < n /\ A from j = None) -> v = None) /\
  ((forall j, j < n -> A from j <> None) -> forall T, total_effects n (denan A) T -> v = Some (T to_ from)) /\
  (w = true <-> exists l r, order = l ++ r /\ In to_ (flatten l) /\ In from (flatten r)).
Proof.
  intros n A order f t Hn OK Hf Ht D AC.
  assert (IK : forall i, i < n -> In i (flatten order)) by (intros i Hi; apply (Permutation_in _ (Permutation_sym OK)), in_seq; lia).
  assert (ND : NoDup (flatten order)) by (apply (Permutation_NoDup (Permutation_sym OK)), seq_NoDup).
  unfold parce_estimate_total_effect2.
  destruct (item_pos f order) as [a|] eqn:Ea; [|apply item_pos_none in Ea; contradiction (Ea (IK f Hf))].
  destruct (item_pos t order) as [b|] eqn:Eb; [|apply item_pos_none in Eb; contradiction (Eb (IK t Ht))].
  rewrite total_effect_neumann by assumption. cbn [bind].
  assert (W : (b <? a) = true <-> exists l r, order = l ++ r /\ In t (flatten l) /\ In f (flatten r)) by (rewrite Nat.ltb_lt; apply item_pos_lt; assumption).
  destruct (row_has_nan n A f) eqn:R.
  - eexists. eexists. split; [reflexivity|]. split; [reflexivity|]. split; [|exact W].
    intro H. apply row_has_nan_iff in R. destruct R as (j & Hj & E). contradiction (H j Hj E).
  - eexists. eexists. split; [reflexivity|]. split; [|split; [|exact W]].
    + intro H. apply row_has_nan_iff in H. congruence.
    + intros _ T HT. f_equal. symmetry. apply (left_inverse_unique n (denan A) T AC HT t f Ht Hf).
Qed.
Print Assumptions C115_parce_effect_by_paths.
Theorem C115_parce_absent_variable :
  forall ols n order A from to_, ~ In from (flatten order) \/ ~ In to_ (flatten order) ->
  parce_estimate_total_effect ols n order A from to_ = Err RuntimeError /\ parce_estimate_total_effect2 n order A from to_ = Err RuntimeError.
Proof.
  intros ols n order A f t H. unfold parce_estimate_total_effect, parce_estimate_total_effect2. destruct H as [H|H]; apply item_pos_none in H; rewrite H.
  - split; reflexivity.
  - destruct (item_pos f order); split; reflexivity.
Qed.
(** MultiGroupDirectLiNGAM: one effect per data set, each correct for its own model. *)
Theorem C115_multi_group_effects :
  forall n K T (gs : list ((list nat -> nat -> nat -> num) * mat num)) from to_, is_order n K -> from < n -> to_ < n ->
  (forall g, In g gs -> exists N B e x, linear_model N n B e x /\ exact_regression N n x (fst g) /\ total_effects n B (T (snd g)) /\
     forall j, j < n -> exists w, snd g from j = Some w /\ (w = 0%Qc <-> B from j = 0%Qc)) ->
  exists w, mgd_estimate_total_effect n K gs from to_ = Ok (map (fun g => Some (T (snd g) to_ from)) gs, w) /\
    (w = true <-> precedes K to_ from).
Proof.
  intros n K T gs f t OK Hf Ht H.
  assert (NDK : NoDup K) by (apply (Permutation_NoDup (Permutation_sym OK)), seq_NoDup).
  assert (IK : forall i, i < n -> In i K) by (intros i Hi; apply (Permutation_in _ (Permutation_sym OK)), in_seq; lia).
  unfold mgd_estimate_total_effect.
  destruct (index_of f K) as [a|] eqn:Ea; [|apply index_of_none in Ea; contradiction (Ea (IK f Hf))].
  destruct (index_of t K) as [b|] eqn:Eb; [|apply index_of_none in Eb; contradiction (Eb (IK t Ht))].
  exists (b <? a). split.
  - f_equal. f_equal. apply map_ext_in. intros [o A] I. destruct (H _ I) as (N & B & e & x & LM & REG & HT & HA). cbn [fst snd] in *.
    apply (predictors_effect N n B e x A (T A) o f t); assumption.
  - pose proof (index_of_some f K a Ea) as Na. pose proof (index_of_some t K b Eb) as Nb.
    rewrite Nat.ltb_lt. split; intro L.
    + apply precedes_nth. exists b, a. split; [exact L|]. split; assumption.
    + apply precedes_nth in L. destruct L as (i & j & L & Hi & Hj).
      assert (i = b) by (eapply NoDup_nth_inj; eassumption). assert (j = a) by (eapply NoDup_nth_inj; eassumption). lia.
Qed.
Print Assumptions C115_multi_group_effects.
(** A variable outside the common order is rejected by both ways to compute the effects. *)
Theorem C115_multi_group_unknown_variable :
  forall n K gs ams from to_, ~ In from K \/ ~ In to_ K ->
  mgd_estimate_total_effect n K gs from to_ = Err ValueError /\ mgd_estimate_total_effect2 n K ams from to_ = Err ValueError.
Proof.
  intros n K gs ams from to_ [H|H]; apply index_of_none in H; unfold mgd_estimate_total_effect, mgd_estimate_total_effect2; rewrite H; [split; reflexivity|].
  destruct (index_of from K); split; reflexivity.
Qed.
Print Assumptions C115_multi_group_unknown_variable.
Example C115_multi_group_unknown_example : ~ In 7 [1; 0] /\ mgd_estimate_total_effect2 2 [1; 0] [] 7 0 = Err ValueError.
Proof. split; [cbn; intuition discriminate|reflexivity]. Qed.
(** One bootstrap round: for each data set the matrix of total effects, above the diagonal of the shared order 0. *)
Theorem C115_multi_group_bootstrap :
  forall n K ams d A T, 2 <= n -> is_order n K -> (forall A, In A ams -> acyclic (edge_of n (denan A))) ->
  nth_error ams d = Some A -> total_effects n (denan A) T ->
  exists te, mgd_boot_te n K ams d = Ok te /\
    forall i j, (precedes K j i -> te i j = Some (T i j)) /\ (~ precedes K j i -> te i j = Some 0%Qc).
Proof.
  intros n K ams d A T Hn OK AC EA HT.
  destruct (mgd_boot_fold n K ams d Hn OK AC A EA (mgd_pairs K) (fun a b => proj1 (mgd_pairs_In K a b)) (fun _ _ => Some 0%Qc)) as (te & Et & H).
  exists te. split; [exact Et|]. intros i j. destruct (H i j) as [H1 H2]. split.
  - intro P. rewrite H1 by (apply mgd_pairs_In; exact P). f_equal. symmetry.
    assert (IK : forall i, In i K -> i < n) by (intros v Hv; apply (Permutation_in _ OK) in Hv; apply in_seq in Hv; lia).
    destruct (precedes_In K j i P) as [Ij Ii].
    apply (left_inverse_unique n (denan A) T (AC A (nth_error_In _ _ EA)) HT i j); apply IK; assumption.
  - intro P. apply H2. intro X. apply P. apply mgd_pairs_In. exact X.
Qed.
Print Assumptions C115_multi_group_bootstrap.
Example C115_example :
  let A : mat num := fun i j => Some (ex_B i j) in
  let An : mat num := fun i j => if i =? j then Some 0%Qc else None in
  rcd_estimate_total_effect ex_reg 2 (fun i j => (i =? 1) && (j =? 0)) A 1 0 = (Some 0%Qc, true) /\
  fst (rcd_estimate_total_effect ex_reg 2 (fun _ _ => false) An 0 1) = None /\
  (forall j, j < 2 -> exists w, A 0 j = Some w /\ (w = 0%Qc <-> ex_B 0 j = 0%Qc)) /\
  linear_model 9 2 ex_B ex_e ex_x /\ exact_regression 9 2 ex_x ex_reg /\ total_effects 2 ex_B ex_T /\
  parce_estimate_total_effect ex_reg 2 [Single 0; Single 1] A 1 0 = Ok (Some 0%Qc, true) /\
  parce_estimate_total_effect ex_reg 2 [Block [0; 1]] An 1 0 = Ok (None, false) /\
  parce_estimate_total_effect2 2 [Single 0; Single 1] A 0 1 = Ok (Some 1%Qc, false) /\
  parce_estimate_total_effect2 2 [Single 0; Single 1] A 0 2 = Err RuntimeError /\
  mgd_estimate_total_effect 2 [0; 1] [(ex_reg, A); (ex_reg, A)] 1 0 = Ok ([Some 0%Qc; Some 0%Qc], true) /\
  (exists te, mgd_boot_te 2 [0; 1] [A; A] 1 = Ok te /\ te 1 0 = Some 1%Qc /\ te 0 1 = Some 0%Qc).
Proof.
  cbv zeta. split; [vm_compute; reflexivity|]. split; [reflexivity|]. split; [intros j _; eexists; split; [reflexivity|tauto]|].
  split; [exact ex_model|]. split; [exact ex_regression|]. split; [exact ex_total|].
  split; [vm_compute; reflexivity|]. split; [reflexivity|]. split; [vm_compute; reflexivity|]. split; [reflexivity|]. split; [vm_compute; reflexivity|].
  eexists. split; [reflexivity|]. split; vm_compute; reflexivity.
Qed.

(** ** C116 *)
(** The matrix is symmetric with zero diagonal; each pair is tested once, with the errors of its two columns. *)
Theorem C116_base_p_values :
  forall pv n A X i j, i < n -> j < n ->
  base_p_values pv n A X i i = Some 0%Qc /\ base_p_values pv n A X i j = base_p_values pv n A X j i /\
  (i < j -> base_p_values pv n A X i j = pv (error_col n A X i) (error_col n A X j)).
Proof.
  intros pv n A X i j Hi Hj. unfold base_p_values. rewrite !p_values_spec by assumption. rewrite Nat.ltb_irrefl. split; [reflexivity|].
  split.
  - destruct (Nat.ltb_spec i j), (Nat.ltb_spec j i); try lia; reflexivity.
  - intro L. apply Nat.ltb_lt in L. rewrite L. reflexivity.
Qed.
Print Assumptions C116_base_p_values.
(** RCD and BottomUpParceLiNGAM: NaN exactly for the pairs with a variable that has an unknown edge. *)
Theorem C116_nan_p_values :
  forall pv n A X i j, i < n -> j < n -> i < j ->
  let unknown v := exists k, k < n /\ (A v k = None \/ A k v = None) in
  (unknown i \/ unknown j -> nan_p_values pv n A X i j = None /\ nan_p_values pv n A X j i = None) /\
  (~ unknown i -> ~ unknown j ->
     nan_p_values pv n A X i j = pv (error_col n A X i) (error_col n A X j) /\
     nan_p_values pv n A X j i = pv (error_col n A X i) (error_col n A X j)) /\
  nan_p_values pv n A X i i = Some 0%Qc.
Proof.
  intros pv n A X i j Hi Hj L unknown.
  assert (U : forall v, v < n -> memb v (nan_cols n A) = true <-> unknown v).
  { intros v Hv. rewrite memb_In, nan_cols_In. unfold unknown. split.
    - intros (a & b & Ha & Hb & E & [->| ->]); [exists b|exists a]; auto.
    - intros (k & Hk & [E|E]); [exists v, k|exists k, v]; auto. }
  unfold nan_p_values. rewrite !p_values_spec by assumption. rewrite Nat.ltb_irrefl.
  destruct (Nat.ltb_spec j i); [lia|]. apply Nat.ltb_lt in L. rewrite L. split; [|split; [|reflexivity]].
  - intro H0. replace (memb i (nan_cols n A) || memb j (nan_cols n A)) with true; [auto|].
    symmetry. apply orb_true_iff. destruct H0 as [Q|Q]; [left|right]; apply U; assumption.
  - intros Ni Nj. replace (memb i (nan_cols n A) || memb j (nan_cols n A)) with false; [auto|].
    symmetry. apply orb_false_iff. split; apply not_true_is_false; intro Q; apply U in Q; auto.
Qed.
Print Assumptions C116_nan_p_values.
Theorem C116_var_p_values :
  forall pv n B0 nn i j, i < n -> j < n ->
  var_p_values pv n B0 nn i i = Some 0%Qc /\ var_p_values pv n B0 nn i j = var_p_values pv n B0 nn j i /\
  (i < j -> var_p_values pv n B0 nn i j = pv (var_error_col n B0 nn i) (var_error_col n B0 nn j)).
Proof.
  intros pv n B0 nn i j Hi Hj. unfold var_p_values. rewrite !p_values_spec by assumption. rewrite Nat.ltb_irrefl. split; [reflexivity|].
  split.
  - destruct (Nat.ltb_spec i j), (Nat.ltb_spec j i); try lia; reflexivity.
  - intro L. apply Nat.ltb_lt in L. rewrite L. reflexivity.
Qed.
Print Assumptions C116_var_p_values.
(** The columns tested are the error variables when the matrix is that of the model. *)
Theorem C116_tested_columns_are_the_errors :
  forall N n B e x (A : mat num), linear_model N n B e x -> (forall i j, i < n -> j < n -> A i j = Some (B i j)) ->
  forall i r, i < n -> r < N -> error_col n A x i r = Some (e i r) /\ var_error_col n A x i r = Some (e i r).
Proof.
  intros N n B e x A LM HA i r Hi Hr. split; [apply (error_col_exact N n B e x A)|apply (var_error_col_exact N n B e x A)]; assumption.
Qed.
Print Assumptions C116_tested_columns_are_the_errors.
Example C116_example :
  let A : mat num := fun i j => Some (ex_B i j) in
  let An : mat num := fun i j => if ((i =? 0) && (j =? 2)) || ((i =? 2) && (j =? 0)) then None else if i =? j then Some 0%Qc else Some 1%Qc in
  let pv : (nat -> num) -> (nat -> num) -> num := fun a b => nadd (a 0) (nmul (Some (qz 10)) (b 3)) in
  base_p_values pv 2 A ex_x 1 0 = Some (qz 2 + qz 10 * ex_v 0)%Qc /\ base_p_values pv 2 A ex_x 1 1 = Some 0%Qc /\
  nan_p_values pv 4 An (fun i _ => qn i) 0 1 = None /\ nan_p_values pv 4 An (fun i _ => qn i) 3 1 <> None /\
  error_col 2 A ex_x 1 4 = Some (ex_e 1 4) /\ var_error_col 2 A ex_x 1 4 = Some (ex_e 1 4).
Proof.
  cbv zeta. split; [vm_compute; reflexivity|]. split; [reflexivity|]. split; [reflexivity|]. split; [vm_compute; discriminate|].
  apply (C116_tested_columns_are_the_errors 9 2 ex_B ex_e ex_x); [exact ex_model|reflexivity|lia|lia].
Qed.
