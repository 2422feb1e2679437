(** * Property theorems: LongitudinalLiNGAM on panels generated by a linear model at every time point (C141) *)
From Coq Require Import List Arith Bool ZArith QArith Qcanon Lia Permutation Relations.
From Verif Require Import Prelude Spec Lib LibMat SpecDirect SpecPop SpecVarPop SpecLongPop ModelPaths ModelDirect ModelTotal ModelVAR ModelVarPop ModelLong
  ProofDirect ProofDirect2 ProofEffect ProofPop ProofPop2 ProofPop3 ProofVarPop ProofVarPop2 ProofLongPop Props_Pop Props_VarPop.
Import ListNotations.
Open Scope nat_scope.

(** The regression of the variables at time [t] on those at the times t-L, ..., t-1 (one block of columns after the
    other) is least-squares with an intercept, over the [N] subjects. *)
Definition solves_panel_regression (reg : mat Qc -> mat Qc -> mat Qc) (N n L t : nat) (X : panel) : Prop :=
  let Z := fun r s => X (t - L + r / n) s (r mod n) in
  let M := reg Z (fun i s => X t s i) in
  forall i q, i < n -> q < L * n -> cov N (fun s => X t s i - sumn (L * n) (fun r => M i r * Z r s))%Qc (Z q) = 0%Qc.
(** DirectLiNGAM applied to a matrix of variables by subjects (428-432: [model.fit(N_t[t].T)]). *)
Definition direct_on_panel score ms lassoD (n N : nat) : mat Qc -> list nat * mat Qc :=
  fun R => direct_on_rows score ms lassoD n N (fun s i => R i s).

(** ** C141 *)
  Theorem C141_longitudinal_fit_recovers_the_model :
    forall N n L t B e X reg score ms lassoD,
    let lingam := direct_on_panel score ms lassoD n N in
    0 < N -> L <= t -> long_model N n L t B e X -> solves_panel_regression reg N n L t X ->
    separates (better ms) N n (B 0) e (score N) ->
    exact_regression N n (N_t reg n L X t) (lassoD N (fun s i => N_t reg n L X t i s)) ->
    (exists K, long_orders reg lingam n L X t = map Some K /\ is_order n K /\ topological (edge_of n (B 0)) K) /\
    (forall i j, i < n -> j < n -> long_adj reg lingam n L X t 0 i j = Some (B 0 i j)) /\
    (forall l i j, l < L -> i < n -> j < n -> long_adj reg lingam n L X t (l + 1) i j = Some (B (L - l) i j)) /\
    linear_model N n (B 0) e (fun i s => match long_resid reg n L X t s i with Some v => v | None => 0%Qc end).
  Proof.
    intros N n L t B e X reg score ms lassoD lingam HN Lt LO SP SEP REG.
    assert (F : (t <? L) = false) by (apply Nat.ltb_ge; exact Lt).
    pose proof (long_resid_model N n L t B e X reg LO Lt HN SP) as MOD.
    destruct (direct_on_rows_correct N n (B 0) e (fun s i => N_t reg n L X t i s) score ms lassoD MOD SEP REG) as (OK & TK & EA).
    assert (EB : forall i j, i < n -> j < n -> B_t reg lingam n L X t i j = B 0 i j) by (intros i j Hi Hj; apply EA; assumption).
    split; [|split; [|split]].
    - exists (fst (lingam (N_t reg n L X t))). unfold long_orders. rewrite F. split; [reflexivity|]. split; [exact OK|exact TK].
    - intros i j Hi Hj. unfold long_adj. rewrite F. f_equal. apply EB; assumption.
    - intros l i j Hl Hi Hj. replace (l + 1) with (S l) by lia. unfold long_adj. rewrite F. f_equal.
      rewrite <- (long_lag_exact N n L t B e X reg LO Lt HN SP i l j Hi Hl Hj). unfold B_tau, mmul. apply sumn_ext. intros a Ha. unfold msub. rewrite (EB i a Hi Ha). reflexivity.
    - unfold long_resid. rewrite F. exact MOD.
  Qed.
  (** One lag (the default): every entry is at its documented place. *)
  Theorem C141_one_lag :
    forall N n L t B e X reg score ms lassoD,
    let lingam := direct_on_panel score ms lassoD n N in
    0 < N -> L = 1 -> L <= t -> long_model N n L t B e X -> solves_panel_regression reg N n L t X ->
    separates (better ms) N n (B 0) e (score N) ->
    exact_regression N n (N_t reg n L X t) (lassoD N (fun s i => N_t reg n L X t i s)) ->
    forall tau i j, tau <= L -> i < n -> j < n -> long_adj reg lingam n L X t tau i j = Some (B tau i j).
  Proof.
    intros N n L t B e X reg score ms lassoD lingam HN E1 Lt LO SP SEP REG tau i j Ht Hi Hj.
    destruct (C141_longitudinal_fit_recovers_the_model N n L t B e X reg score ms lassoD HN Lt LO SP SEP REG) as (_ & H0 & H1 & _).
    destruct tau as [|tau]; [apply H0; assumption|]. assert (tau = 0) as -> by lia.
    pose proof (H1 0 i j ltac:(lia) Hi Hj) as Q. cbn [Nat.add] in Q. unfold lingam. rewrite Q, E1. reflexivity.
  Qed.
Print Assumptions C141_longitudinal_fit_recovers_the_model.
Print Assumptions C141_one_lag.

(** Nine subjects at two times: x0_1 = e0, x1_1 = x0_1 + x0_0 + e1. *)
Definition lx_X : panel := fun t s i => vx_X (s + t) i.
Definition lx_reg (Z y : mat Qc) : mat Qc := ex_B.
Lemma lx_model : long_model 9 2 1 1 vx_B vx_e lx_X.
Proof.
  pose proof vx_model as V. constructor.
  - exact (vm_acyclic _ _ _ _ _ _ V).
  - intros s i Hi Hs. destruct i as [|[|i]]; [| |lia]; do 9 (destruct s as [|s]; [apply Qc_is_canon; vm_compute; reflexivity|]); lia.
  - intros i Hi. destruct i as [|[|i]]; [| |lia]; vm_compute; reflexivity.
  - intros i j Hi Hj D. destruct i as [|[|i]]; [| |lia]; destruct j as [|[|j]]; try lia; apply Qc_is_canon; vm_compute; reflexivity.
  - intros i k j Hi Hk Hj. destruct k as [|k]; [|lia]. destruct i as [|[|i]]; [| |lia]; destruct j as [|[|j]]; try lia; apply Qc_is_canon; vm_compute; reflexivity.
  - intros c c0 H k j Hk Hj. apply (vm_independent _ _ _ _ _ _ V c c0); [|exact Hk|exact Hj]. intros r Hr. rewrite <- (H r Hr).
    unfold past_sum, past, lx_X. apply sumn_ext. intros k' Hk'. apply sumn_ext. intros j' Hj'. f_equal. f_equal. lia.
Qed.
Lemma lx_solves : solves_panel_regression lx_reg 9 2 1 1 lx_X.
Proof.
  intros i q Hi Hq. destruct i as [|[|i]]; [| |lia]; destruct q as [|[|q]]; try lia; apply Qc_is_canon; vm_compute; reflexivity.
Qed.
Lemma lx_regression : exact_regression 9 2 (N_t lx_reg 2 1 lx_X 1) vx_reg.
Proof.
  assert (E : forall i r, i < 2 -> r < 9 -> N_t lx_reg 2 1 lx_X 1 i r = vx_R i r)
    by (intros i r Hi Hr; destruct i as [|[|i]]; [| |lia]; do 9 (destruct r as [|r]; [apply Qc_is_canon; vm_compute; reflexivity|]); lia).
  intros ps i Hi HP ND NE. destruct (vx_regression ps i Hi HP ND NE) as (c & LS & HC). exists c. split; [|exact HC].
  intros q Hq. rewrite <- (LS q Hq). apply cov_ext; intros r Hr.
  - rewrite (E i r Hi Hr). apply (f_equal (fun v => vx_R i r - v)%Qc). apply sumf_ext. intros p Hp. rewrite (E p r (HP p Hp) Hr). reflexivity.
  - apply E; [apply HP; exact Hq|exact Hr].
Qed.
Example C141_example :
  long_model 9 2 1 1 vx_B vx_e lx_X /\ solves_panel_regression lx_reg 9 2 1 1 lx_X /\
  separates (better Kernel) 9 2 (vx_B 0) vx_e (kernel_score 9 ex_mi) /\
  exact_regression 9 2 (N_t lx_reg 2 1 lx_X 1) vx_reg /\
  let lingam := direct_on_panel (fun N => kernel_score N ex_mi) Kernel (fun _ _ => vx_reg) 2 9 in
  (long_orders lx_reg lingam 2 1 lx_X 1,
   map (fun tau => map (fun p => match long_adj lx_reg lingam 2 1 lx_X 1 tau (fst p) (snd p) with Some v => this v | None => 7%Q end) [(0, 0); (0, 1); (1, 0); (1, 1)]) [0; 1])
  = ([Some 0; Some 1], [[0; 0; 1; 0]; [0; 0; 1; 0]]%Q).
Proof.
  split; [exact lx_model|]. split; [exact lx_solves|]. split; [apply kernel_separates, vx_detects|]. split; [exact lx_regression|]. vm_compute. reflexivity.
Qed.
