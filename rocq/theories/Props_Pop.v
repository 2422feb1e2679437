(** * Property theorems: correctness on data generated by a linear acyclic model (C105-C109) *)
From Coq Require Import List Arith Bool ZArith QArith Qcanon Lia Permutation Relations Sorted.
From Verif Require Import Prelude Spec Lib LibMat SpecDirect SpecPop ModelDirect ModelOrder ModelTotal ProofDirect ProofDirect2 ProofOrder ProofEffect
  ProofPop ProofPop2 ProofPop3 ProofIca.
Import ListNotations.
Open Scope nat_scope.

(** ** C105: the order found on model data is a causal order of the model *)
Theorem C105_order_is_causal :
  forall N n B e x ms score ok mode l,
  linear_model N n B e x ->
  separates (better ms) N n B e score ->
  is_order n l -> topological (edge_of n B) l ->
  match mode with NoPK => True | Strong pk => ok = true /\ respects n pk l | Soft _ => False end ->
  exists K, fit_order sample (np_residual N) score (argsel_of ms) n ok mode x = Ok K /\
    is_order n K /\ topological (edge_of n B) K.
Proof. exact fit_order_correct. Qed.
Print Assumptions C105_order_is_causal.
(** Without knowledge no order has to be given: every acyclic model has one. *)
Theorem C105_order_is_causal_without_knowledge :
  forall N n B e x ms score ok,
  linear_model N n B e x -> separates (better ms) N n B e score ->
  exists K, fit_order sample (np_residual N) score (argsel_of ms) n ok NoPK x = Ok K /\
    is_order n K /\ topological (edge_of n B) K.
Proof.
  intros N n B e x ms score ok M SEP. destruct (topo_exists (edge_of n B) n (edge_of_dec n B) (lm_acyclic N n B e x M)) as (l & O & T).
  apply (fit_order_correct N n B e x ms score ok NoPK l M SEP O); [|exact Logic.I]. intros a b E. apply T; [apply E|apply E|exact E].
Qed.
Print Assumptions C105_order_is_causal_without_knowledge.
(** The kernel measure separates whenever the mutual information detects dependent residuals. *)
Theorem C105_kernel_measure :
  forall N n B e mi, detects_dependence (np_residual N) mi N n B e -> separates (better Kernel) N n B e (kernel_score N mi).
Proof. exact kernel_separates. Qed.
Print Assumptions C105_kernel_measure.
(** The pairwise measure separates whenever the difference of mutual informations tells directions. *)
Theorem C105_pairwise_measure :
  forall N n B e std dmi,
  detects_direction (fun a b => dmi (std a) (std b) (np_residual N (std a) (std b)) (np_residual N (std b) (std a))) N n B e ->
  separates (better Pwling) N n B e (pwling_score sample (np_residual N) std dmi).
Proof. exact pwling_separates. Qed.
Print Assumptions C105_pairwise_measure.

(** ** C106: coefficients *)
Theorem C106_coefficients_recovered :
  forall N n B e x K lasso pk,
  linear_model N n B e x -> is_order n K -> topological (edge_of n B) K ->
  (forall m i j, pk = Some m -> m i j = Some 0%Qc -> B i j = 0%Qc) ->
  exact_regression N n x lasso ->
  forall i j, i < n -> j < n -> estimate_adjacency_matrix lasso pk K i j = Some (B i j).
Proof.
  intros N n B e x K lasso pk M O T PK REG i j Hi Hj. apply (adjacency_exact N n B e x (lm_rows N n B e x i M Hi) M K O T); try assumption.
  intros ps k Hk _ HR ND NE. apply (REG ps k Hk HR ND NE).
Qed.
Print Assumptions C106_coefficients_recovered.

(** ** C107: total effects *)
Theorem C107_total_effect_exact :
  forall N n B e x K A T ols from to_,
  linear_model N n B e x -> is_order n K -> topological (edge_of n B) K ->
  (forall j, j < n -> A from j <> Some 0%Qc -> precedes K j from) ->
  (forall j, j < n -> B from j <> 0%Qc -> A from j <> Some 0%Qc /\ A from j <> None) ->
  exact_regression N n x ols -> total_effects n B T -> from < n -> to_ < n ->
  exists w, base_total_effect ols n K A from to_ = Ok (Some (T to_ from), w) /\ (w = true <-> precedes K to_ from).
Proof. exact base_total_correct. Qed.
Print Assumptions C107_total_effect_exact.
(** A variable outside the order is rejected. *)
Theorem C107_unknown_variable_rejected :
  forall ols n K A from to_, ~ In from K \/ ~ In to_ K -> base_total_effect ols n K A from to_ = Err ValueError.
Proof.
  intros ols n K A from to_ [H|H]; apply index_of_none in H; unfold base_total_effect; rewrite H; [reflexivity|].
  destruct (index_of from K); reflexivity.
Qed.
Print Assumptions C107_unknown_variable_rejected.
Example C107_unknown_variable_example : ~ In 5 [0; 1] /\ base_total_effect (fun _ _ _ => None) 2 [0; 1] (fun _ _ => Some 0%Qc) 0 5 = Err ValueError.
Proof. split; [cbn; intuition discriminate|reflexivity]. Qed.

(** ** C108: the whole chain *)
Theorem C108_fit_then_effect :
  forall N n B e x ms score lasso ols T ok mode l,
  linear_model N n B e x -> separates (better ms) N n B e score ->
  exact_regression N n x lasso -> exact_regression N n x ols -> total_effects n B T ->
  is_order n l -> topological (edge_of n B) l ->
  match mode with NoPK => True | Strong pk => ok = true /\ respects n pk l | Soft _ => False end ->
  (forall m i j, pk_of_mode mode = Some m -> m i j = Some 0%Qc -> B i j = 0%Qc) ->
  exists K A, direct_fit (np_residual N) score ms lasso n ok mode x = Ok (K, A) /\
    is_order n K /\ topological (edge_of n B) K /\
    (forall i j, i < n -> j < n -> A i j = Some (B i j)) /\
    (forall from to_, from < n -> to_ < n -> exists w, base_total_effect ols n K A from to_ = Ok (Some (T to_ from), w)).
Proof.
  intros N n B e x ms score lasso ols T ok mode l M SEP REG REG2 HT OL TL MF PK.
  destruct (direct_fit_correct N n B e x ms score lasso ok mode l M SEP REG OL TL MF PK) as (K & A & E & OK & TK & EA).
  exists K, A. split; [exact E|]. split; [exact OK|]. split; [exact TK|]. split; [exact EA|].
  intros f t Hf Ht. destruct (base_total_correct N n B e x K A T ols f t M OK TK) as (w & Ew & _); try assumption; [| |exists w; exact Ew].
  - intros j Hj NA. apply TK. split; [exact Hf|]. split; [exact Hj|]. intro Z. apply NA. rewrite (EA f j Hf Hj), Z. reflexivity.
  - intros j Hj Nz. rewrite (EA f j Hf Hj). split; congruence.
Qed.
Print Assumptions C108_fit_then_effect.

(** ** C109: ICA-LiNGAM with an exact unmixing matrix *)
Definition scaled_permuted_model (n : nat) (B W : mat Qc) : Prop :=
  exists (s : nat -> Qc) (p pinv : nat -> nat),
    (forall r, r < n -> p r < n /\ pinv r < n /\ p (pinv r) = r /\ pinv (p r) = r /\ s r <> 0%Qc) /\
    forall r j, r < n -> j < n -> W r j = (s r * (midn (p r) j - B (p r) j))%Qc.
(** [c]: the row-to-column assignment, [cinv] its inverse. *)
Definition assignment_without_zeros (n : nat) (W : mat Qc) (c cinv : nat -> nat) : Prop :=
  forall r, r < n -> c r < n /\ cinv r < n /\ c (cinv r) = r /\ cinv (c r) = r /\ W r (c r) <> 0%Qc.
Theorem C109_ica_estimate_exact :
  forall n B W c cinv, acyclic (edge_of n B) -> scaled_permuted_model n B W -> assignment_without_zeros n W c cinv ->
  forall i j, i < n -> j < n -> ica_B W cinv i j = B i j.
Proof.
  intros n B W c cinv A (s & p & pinv & H & E) C i j Hi Hj.
  apply (ica_B_exact n B W s p pinv c cinv); try assumption; try (intros r Hr; apply (H r Hr)); try (intros r Hr; apply (C r Hr)).
  intros r q Hr Hq Q. destruct (C r Hr) as (_ & _ & _ & Q1 & _). destruct (C q Hq) as (_ & _ & _ & Q2 & _). congruence.
Qed.
Print Assumptions C109_ica_estimate_exact.
Theorem C109_ica_fit_correct :
  forall N n B e x W c cinv pos lasso, 2 <= n ->
  linear_model N n B e x -> scaled_permuted_model n B W -> assignment_without_zeros n W c cinv ->
  Permutation pos (list_prod (seq 0 n) (seq 0 n)) -> sorted_pos (fun i j => Some (ica_B W cinv i j)) pos ->
  exact_regression N n x lasso ->
  exists K A, ica_fit n pos lasso (fun i j => Some (ica_B W cinv i j)) = Ok (K, A) /\
    is_order n K /\ topological (edge_of n B) K /\ forall i j, i < n -> j < n -> A i j = Some (B i j).
Proof.
  intros N n B e x W c cinv pos lasso Hn M SP AS P S REG.
  pose proof (C109_ica_estimate_exact n B W c cinv (lm_acyclic N n B e x M) SP AS) as EB.
  assert (EQ : forall a b, edge_of n (ica_B W cinv) a b <-> edge_of n B a b).
  { intros a b. unfold edge_of. split; intros (Hb & Ha & Nz); (split; [exact Hb|]; split; [exact Ha|]); rewrite EB in *; assumption. }
  destruct (ica_order_exact n pos (ica_B W cinv) Hn P S) as (K & E & O & T).
  { apply (acyclic_sub _ (edge_of n B)); [intros a b; apply EQ|apply (lm_acyclic N n B e x M)]. }
  assert (T' : topological (edge_of n B) K) by (intros a b H; apply T, EQ, H).
  exists K, (estimate_adjacency_matrix lasso None K). unfold ica_fit. rewrite E. split; [reflexivity|]. split; [exact O|]. split; [exact T'|].
  apply (C106_coefficients_recovered N n B e x K lasso None M O T'); [discriminate|exact REG].
Qed.
Print Assumptions C109_ica_fit_correct.

(** ** A concrete model: x0 = e0, x1 = x0 + e1; (e0, e1) runs through {2,-1,-1} x {2,-1,-1}. *)
Definition ex_B : mat Qc := fun i j => if (i =? 1) && (j =? 0) then 1%Qc else 0%Qc.
Definition ex_v (k : nat) : Qc := if k =? 0 then qz 2 else qz (-1).
Definition ex_e (i : nat) : sample := fun r => if i =? 0 then ex_v (r / 3) else ex_v (r mod 3).
Definition ex_x (i : nat) : sample := fun r => if i =? 0 then ex_e 0 r else (ex_e 0 r + ex_e 1 r)%Qc.
Definition ex_T : mat Qc := fun i j => if (i =? j) || ((i =? 1) && (j =? 0)) then 1%Qc else 0%Qc.
(** A dependence measure: squared third-order cross moment. *)
Definition ex_mi (a b : sample) : num := let m := cov 9 a (fun r => b r * b r)%Qc in Some (m * m)%Qc.
(** Regression on at most one other variable. *)
Definition ex_reg (ps : list nat) (i p : nat) : num :=
  if memb i ps then (if p =? i then Some 1%Qc else Some 0%Qc) else Some (cov 9 (ex_x i) (ex_x p) / var 9 (ex_x p))%Qc.

Lemma ex_topo : topological (edge_of 2 ex_B) [0; 1].
Proof.
  intros a b (Hb & Ha & Nz). unfold ex_B in Nz. destruct (b =? 1) eqn:E1; [|cbn in Nz; congruence]. destruct (a =? 0) eqn:E2; [|cbn in Nz; congruence].
  apply Nat.eqb_eq in E1, E2. subst. exists [], [], []. reflexivity.
Qed.
Lemma ex_model : linear_model 9 2 ex_B ex_e ex_x.
Proof.
  constructor.
  - apply (topological_acyclic _ [0; 1]); [repeat constructor; cbn; intuition discriminate|exact ex_topo].
  - intros i r Hi Hr. destruct i as [|[|i]]; [| |lia]; cbn [sumn sumf seq map]; unfold sumn, sumf; cbn; ring.
  - intros i Hi. destruct i as [|[|i]]; [| |lia]; vm_compute; reflexivity.
  - intros i j Hi Hj D. destruct i as [|[|i]]; [| |lia]; destruct j as [|[|j]]; try lia; apply Qc_is_canon; vm_compute; reflexivity.
Qed.
Lemma ex_sub : forall U x, NoDup U -> submodel 9 ex_B ex_e U x -> In 0 U -> In 1 U -> forall i r, i < 2 -> r < 9 -> x i r = ex_x i r.
Proof.
  intros U x ND S I0 I1.
  assert (X0 : forall r, r < 9 -> x 0 r = ex_e 0 r).
  { intros r Hr. rewrite (S 0 r I0 Hr). rewrite sumf_zero; [ring|]. intros j _. unfold ex_B. cbn. ring. }
  intros i r Hi Hr. destruct i as [|[|i]]; [apply X0; exact Hr| |lia].
  rewrite (S 1 r I1 Hr). rewrite (sumf_split U 0 _ ND I0). rewrite sumf_zero.
  - unfold ex_B. cbn [Nat.eqb andb]. unfold ex_x. cbn [Nat.eqb]. rewrite (X0 r Hr). ring.
  - intros j Hj. apply remove_nat_In in Hj. destruct Hj as [_ Nj]. unfold ex_B. destruct (Nat.eqb_spec j 0); [contradiction|]. rewrite andb_false_r. ring.
Qed.
Lemma np_residual_ext : forall N a a' b b', (forall r, r < N -> a r = a' r) -> (forall r, r < N -> b r = b' r) ->
  forall r, r < N -> np_residual N a b r = np_residual N a' b' r.
Proof. intros N a a' b b' Ha Hb r Hr. unfold np_residual, var. rewrite (cov_ext N a a' b b' Ha Hb), (cov_ext N b b' b b' Hb Hb), (Ha r Hr), (Hb r Hr). reflexivity. Qed.
Lemma ex_mi_ext : forall a a' b b', (forall r, r < 9 -> a r = a' r) -> (forall r, r < 9 -> b r = b' r) -> ex_mi a b = ex_mi a' b'.
Proof.
  intros a a' b b' Ha Hb. unfold ex_mi. cbv zeta. rewrite (cov_ext 9 a a' (fun r => b r * b r)%Qc (fun r => b' r * b' r)%Qc Ha); [reflexivity|].
  intros r Hr. rewrite (Hb r Hr). reflexivity.
Qed.
Lemma ex_detects : detects_dependence (np_residual 9) ex_mi 9 2 ex_B ex_e.
Proof.
  intros U x j ND HU S Hj.
  assert (EXO : forall U, exogenous_in ex_B U 0) by (intros V k _; reflexivity).
  assert (EX1 : exogenous_in ex_B U 1 <-> ~ In 0 U).
  { split; [intros H I0; specialize (H 0 I0); discriminate|]. intros H k Hk. unfold ex_B. destruct (Nat.eqb_spec k 0) as [->|]; [contradiction|]. reflexivity. }
  assert (MI : forall i j, In 0 U -> In 1 U -> i < 2 -> j < 2 -> ex_mi (x j) (np_residual 9 (x i) (x j)) = ex_mi (ex_x j) (np_residual 9 (ex_x i) (ex_x j))).
  { intros i k I0 I1 Hi Hk. pose proof (ex_sub U x ND S I0 I1) as X. apply ex_mi_ext; [intros r Hr; apply X; assumption|]. apply np_residual_ext; intros r Hr; apply X; assumption. }
  assert (V01 : ex_mi (ex_x 0) (np_residual 9 (ex_x 1) (ex_x 0)) = Some 0%Qc) by (unfold ex_mi; cbv zeta; f_equal; apply Qc_is_canon; vm_compute; reflexivity).
  assert (V10 : exists v, ex_mi (ex_x 1) (np_residual 9 (ex_x 0) (ex_x 1)) = Some v /\ (0 < v)%Qc) by (eexists; split; [reflexivity|vm_compute; reflexivity]).
  pose proof (HU j Hj) as Lj. split.
  - intros i Hi Nij. pose proof (HU i Hi) as Li. destruct j as [|[|j]]; [| |lia].
    + destruct i as [|[|i]]; [congruence| |lia]. exists 0%Qc. rewrite (MI 1 0 Hj Hi Li Lj). split; [exact V01|]. split; [apply Qcle_refl|reflexivity].
    + destruct i as [|[|i]]; [|congruence|lia]. destruct V10 as (v & E & P). exists v. rewrite (MI 0 1 Hi Hj Li Lj). split; [exact E|]. split; [apply Qclt_le_weak; exact P|].
      intro X. apply EX1 in X. contradiction.
  - intro NX. destruct j as [|[|j]]; [contradiction (NX (EXO U))| |lia]. destruct (in_dec Nat.eq_dec 0 U) as [I0|I0]; [|contradiction NX; apply EX1; exact I0].
    destruct V10 as (v & E & P). exists 0, v. split; [exact I0|]. split; [discriminate|]. rewrite (MI 0 1 I0 Hj ltac:(lia) Lj). split; assumption.
Qed.
Lemma ex_regression : exact_regression 9 2 ex_x ex_reg.
Proof.
  intros ps i Hi HP ND NE. destruct (in_dec Nat.eq_dec i ps) as [I|I].
  - exists (fun p => if p =? i then 1%Qc else 0%Qc). split.
    + intros q Hq. rewrite (cov_ext 9 _ (fun _ => 0%Qc) _ (ex_x q)); [apply cov_zero| |reflexivity]. intros r Hr.
      rewrite (sumf_split ps i _ ND I). rewrite Nat.eqb_refl. rewrite sumf_zero; [ring|]. intros j Hj. apply remove_nat_In in Hj. destruct Hj as [_ Nj]. destruct (Nat.eqb_spec j i); [contradiction|ring].
    + intros p Hp. unfold ex_reg. apply memb_In in I. rewrite I. destruct (p =? i); reflexivity.
  - assert (M : memb i ps = false) by (apply memb_notIn; exact I).
    exists (fun p => cov 9 (ex_x i) (ex_x p) / var 9 (ex_x p))%Qc. split; [|intros p Hp; unfold ex_reg; rewrite M; reflexivity].
    destruct ps as [|p ps]; [congruence|]. assert (ps = []) as ->.
    { destruct ps as [|q ps]; [reflexivity|]. exfalso. pose proof (HP p (or_introl eq_refl)). pose proof (HP q (or_intror (or_introl eq_refl))).
      apply NoDup_cons_iff in ND. destruct ND as [N1 _]. cbn in I, N1. assert (i <> p) by (intros ->; apply I; auto). assert (i <> q) by (intros ->; apply I; auto). assert (q <> p) by (intros ->; apply N1; auto). lia. }
    intros q [<-|[]]. pose proof (HP p (or_introl eq_refl)) as Hp. cbn in I.
    destruct i as [|[|i]]; [| |lia]; destruct p as [|[|p]]; try lia; apply Qc_is_canon; vm_compute; reflexivity.
Qed.
Lemma ex_total : total_effects 2 ex_B ex_T.
Proof. intros i j Hi Hj. destruct i as [|[|i]]; [| |lia]; destruct j as [|[|j]]; try lia; apply Qc_is_canon; vm_compute; reflexivity. Qed.
(** Strong knowledge that is true of the model: a path from x0 to x1. *)
Definition ex_pk : mat num := fun i j => if (i =? 1) && (j =? 0) then Some 1%Qc else None.

Example C105_example :
  linear_model 9 2 ex_B ex_e ex_x /\ separates (better Kernel) 9 2 ex_B ex_e (kernel_score 9 ex_mi) /\
  is_order 2 [0; 1] /\ topological (edge_of 2 ex_B) [0; 1] /\ respects 2 ex_pk [0; 1] /\
  fit_order sample (np_residual 9) (kernel_score 9 ex_mi) (argsel_of Kernel) 2 true NoPK ex_x = Ok [0; 1] /\
  fit_order sample (np_residual 9) (kernel_score 9 ex_mi) (argsel_of Kernel) 2 true (Strong ex_pk) ex_x = Ok [0; 1].
Proof.
  split; [exact ex_model|]. split; [apply kernel_separates, ex_detects|]. split; [apply Permutation_refl|]. split; [exact ex_topo|].
  split; [|split; vm_compute; reflexivity].
  intros a b Ha Hb MP. unfold must_precede, ex_pk in MP. destruct a as [|[|a]]; [| |lia]; destruct b as [|[|b]]; try lia; cbn in MP; destruct MP as [MP|[MP _]]; try discriminate.
  exists [], [], []. reflexivity.
Qed.
(** The roles matter: with the true direction reversed in the labels the order is reversed. *)
Example C105_example_relabelled :
  fit_order sample (np_residual 9) (kernel_score 9 ex_mi) (argsel_of Kernel) 2 true NoPK (fun i => ex_x (1 - i)) = Ok [1; 0].
Proof. vm_compute. reflexivity. Qed.
(** The pairwise measure on the same data, with the difference of dependences in place of the entropy difference. *)
Definition ex_dmi (xi xj ri rj : sample) : num :=
  let a := cov 9 xj (fun r => ri r * ri r)%Qc in let b := cov 9 xi (fun r => rj r * rj r)%Qc in Some (a * a - b * b)%Qc.
Example C105_pairwise_example :
  detects_direction (fun a b => ex_dmi a b (np_residual 9 a b) (np_residual 9 b a)) 9 2 ex_B ex_e /\
  fit_order sample (np_residual 9) (pwling_score sample (np_residual 9) (fun a => a) ex_dmi) (argsel_of Pwling) 2 true NoPK ex_x = Ok [0; 1].
Proof.
  split; [|vm_compute; reflexivity].
  assert (EXT : forall a a' b b', (forall r, r < 9 -> a r = a' r) -> (forall r, r < 9 -> b r = b' r) ->
    ex_dmi a b (np_residual 9 a b) (np_residual 9 b a) = ex_dmi a' b' (np_residual 9 a' b') (np_residual 9 b' a')).
  { intros a a' b b' Ha Hb. unfold ex_dmi. cbv zeta.
    rewrite (cov_ext 9 b b' (fun r => np_residual 9 a b r * np_residual 9 a b r)%Qc (fun r => np_residual 9 a' b' r * np_residual 9 a' b' r)%Qc Hb) by (intros r Hr; rewrite (np_residual_ext 9 a a' b b' Ha Hb r Hr); reflexivity).
    rewrite (cov_ext 9 a a' (fun r => np_residual 9 b a r * np_residual 9 b a r)%Qc (fun r => np_residual 9 b' a' r * np_residual 9 b' a' r)%Qc Ha) by (intros r Hr; rewrite (np_residual_ext 9 b b' a a' Hb Ha r Hr); reflexivity). reflexivity. }
  assert (V01 : exists v, ex_dmi (ex_x 0) (ex_x 1) (np_residual 9 (ex_x 0) (ex_x 1)) (np_residual 9 (ex_x 1) (ex_x 0)) = Some v /\ (0 <= v)%Qc) by (eexists; split; [reflexivity|vm_compute; discriminate]).
  assert (V10 : exists v, ex_dmi (ex_x 1) (ex_x 0) (np_residual 9 (ex_x 1) (ex_x 0)) (np_residual 9 (ex_x 0) (ex_x 1)) = Some v /\ (v < 0)%Qc) by (eexists; split; [reflexivity|vm_compute; reflexivity]).
  intros U x i ND HU S Hi. pose proof (HU i Hi) as Li. cbv beta.
  split.
  - intros j Hj Nij. pose proof (HU j Hj) as Lj. destruct i as [|[|i]]; [| |lia]; (destruct j as [|[|j]]; [| |lia]); try congruence.
    + destruct V01 as (v & E & P). exists v. pose proof (ex_sub U x ND S Hi Hj) as X. rewrite (EXT (x 0) (ex_x 0) (x 1) (ex_x 1)) by (intros r Hr; apply X; [lia|exact Hr]). split; [exact E|intros _; exact P].
    + destruct V10 as (v & E & P). exists v. pose proof (ex_sub U x ND S Hj Hi) as X. rewrite (EXT (x 1) (ex_x 1) (x 0) (ex_x 0)) by (intros r Hr; apply X; [lia|exact Hr]). split; [exact E|].
      intro EX. specialize (EX 0 Hj). discriminate.
  - intro NX. destruct i as [|[|i]]; [exfalso; apply NX; intros k _; reflexivity| |lia].
    destruct (in_dec Nat.eq_dec 0 U) as [I0|I0].
    + destruct V10 as (v & E & P). exists 0, v. pose proof (ex_sub U x ND S I0 Hi) as X. rewrite (EXT (x 1) (ex_x 1) (x 0) (ex_x 0)) by (intros r Hr; apply X; [lia|exact Hr]). repeat split; try assumption. discriminate.
    + exfalso. apply NX. intros k Hk. unfold ex_B. destruct (Nat.eqb_spec k 0) as [->|]; [contradiction|reflexivity].
Qed.
Example C106_example :
  linear_model 9 2 ex_B ex_e ex_x /\ exact_regression 9 2 ex_x ex_reg /\
  option_map this (estimate_adjacency_matrix ex_reg None [0; 1] 1 0) = Some 1%Q /\
  option_map this (estimate_adjacency_matrix ex_reg None [1; 0] 0 1) = Some (1 # 2)%Q.
Proof. split; [exact ex_model|]. split; [exact ex_regression|]. split; vm_compute; reflexivity. Qed.
Example C107_example :
  total_effects 2 ex_B ex_T /\ exact_regression 9 2 ex_x ex_reg /\
  (forall j, j < 2 -> ex_B 1 j <> 0%Qc -> Some (ex_B 1 j) <> Some 0%Qc /\ Some (ex_B 1 j) <> None) /\
  base_total_effect ex_reg 2 [0; 1] (fun i j => Some (ex_B i j)) 1 0 = Ok (Some 0%Qc, true).
Proof.
  split; [exact ex_total|]. split; [exact ex_regression|]. split; [intros j _ H; split; congruence|]. vm_compute. reflexivity.
Qed.
Example C108_example : pk_of_mode (Strong ex_pk) = Some ex_pk /\ (forall i j, ex_pk i j = Some 0%Qc -> ex_B i j = 0%Qc).
Proof. split; [reflexivity|]. intros i j H. unfold ex_pk in H. destruct ((i =? 1) && (j =? 0)); discriminate. Qed.
(** W = rows of (I - B) exchanged and scaled by 2 and -3. *)
Definition ex_W : mat Qc := fun r j => if r =? 0 then (if j =? 0 then qz (-2) else qz 2) else (if j =? 0 then qz (-3) else 0%Qc).
Example C109_example :
  scaled_permuted_model 2 ex_B ex_W /\ assignment_without_zeros 2 ex_W (fun r => 1 - r) (fun r => 1 - r) /\
  sorted_pos (fun i j => Some (ica_B ex_W (fun r => 1 - r) i j)) [(0, 0); (0, 1); (1, 1); (1, 0)] /\
  Permutation [(0, 0); (0, 1); (1, 1); (1, 0)] (list_prod (seq 0 2) (seq 0 2)) /\
  fst (ica_estimate_order 2 [(0, 0); (0, 1); (1, 1); (1, 0)] (fun i j => Some (ica_B ex_W (fun r => 1 - r) i j))) = Some [0; 1].
Proof.
  split; [|split; [|split; [|split; [|vm_compute; reflexivity]]]].
  - exists (fun r => if r =? 0 then qz 2 else qz (-3)), (fun r => 1 - r), (fun r => 1 - r). split.
    + intros r Hr. destruct r as [|[|r]]; [| |lia]; repeat split; cbn; try lia; discriminate.
    + intros r j Hr Hj. destruct r as [|[|r]]; [| |lia]; destruct j as [|[|j]]; try lia; apply Qc_is_canon; vm_compute; reflexivity.
  - intros r Hr. destruct r as [|[|r]]; [| |lia]; repeat split; cbn; try lia; discriminate.
  - unfold sorted_pos. repeat constructor; cbn [fst snd nle_abs]; vm_compute; discriminate.
  - cbn. apply perm_skip, perm_skip, perm_swap.
Qed.
