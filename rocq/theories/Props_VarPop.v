(** * Property theorems: VARLiNGAM on series generated by a structural vector autoregression (C140) *)
From Coq Require Import List Arith Bool ZArith QArith Qcanon Lia Permutation Relations.
From Verif Require Import Prelude Spec Lib LibMat SpecDirect SpecPop SpecVarPop ModelPaths ModelDirect ModelTotal ModelVAR ModelVarPop
  ProofDirect ProofDirect2 ProofEffect ProofPop ProofPop2 ProofPop3 ProofVAR ProofVarPop ProofVarPop2 Props_Pop Props_VAR.
Import ListNotations.
Open Scope nat_scope.

(** ** C140 *)
(** The vector autoregression [est] returns [p] coefficient matrices solving the normal equations, and the residuals. *)
Definition solves_autoregression (est : nat -> series -> nat -> list (mat Qc) * series) (N n p : nat) (X : series) : Prop :=
  length (fst (est N X p)) = p /\ var_least_squares N n p X (fun k => nth k (fst (est N X p)) zmat) /\
  forall r i, r < N - p -> i < n ->
    snd (est N X p) r i = (X (r + p)%nat i - past_sum n p X (fun k j => nth k (fst (est N X p)) zmat i j) r)%Qc.
(** The regressions of the pruning step (on the values at the same time of some variables, then the [p] lagged blocks,
    at the times N-1, ..., p) are least-squares. *)
Definition solves_pruning (lasso : lasso_fn) (N n p : nat) (X : series) : Prop :=
  forall i anc, i < n -> NoDup anc -> (forall a, In a anc -> a < n /\ a <> i) ->
  let row t := map (X t) anc ++ flat_map (fun k => map (X (t - k)) (seq 0 n)) (seq 1 p) in
  let times := map (fun r => N - 1 - r) (seq 0 (N - p)) in
  least_squares (N - p) (fun q r => nth q (row (N - 1 - r)) 0%Qc) (fun r => X (N - 1 - r) i)
    (seq 0 (length anc + n * p)) (lasso (map row times) (map (fun t => X t i) times)).
Theorem C140_var_fit_recovers_the_model :
  forall N n p B e X est score ms lassoD lasso prune o,
  1 <= p -> var_model N n p B e X -> vo_ar o = None -> vo_lags o = p ->
  solves_autoregression est N n p X ->
  separates (better ms) (N - p) n (B 0) e (score (N - p)) ->
  exact_regression (N - p) n (fun i r => snd (est N X p) r i) (lassoD (N - p) (snd (est N X p))) ->
  (prune = true -> solves_pruning lasso N n p X) ->
  exists o' K Bs, var_fit est (direct_on_rows score ms lassoD n) lasso n prune o N X = Ok (o', (K, Bs)) /\
    is_order n K /\ topological (edge_of n (B 0)) K /\ length Bs = p + 1 /\ vo_lags o' = p /\
    forall k i j, k <= p -> i < n -> j < n -> nth k Bs zmat i j = B k i j.
Proof.
  intros N n p B e X est score ms lassoD lasso prune o Hp VM Ho Hl SA SEP REG SP.
  apply (var_fit_correct N n p B e X est score ms lassoD lasso prune o Hp VM Ho Hl); try assumption.
  unfold solves_autoregression in SA. destruct (est N X p) as [Ms R]. cbn [fst snd] in *. split; [exact SA|exact REG].
Qed.
Print Assumptions C140_var_fit_recovers_the_model.
(** The residuals of the fit are those of the instantaneous model, whatever LiNGAM method is applied to them. *)
Theorem C140_residuals_follow_the_instantaneous_model :
  forall N n p B e X est, var_model N n p B e X -> solves_autoregression est N n p X ->
  linear_model (N - p) n (B 0) e (fun i r => snd (est N X p) r i) /\
  forall k i j, k < p -> i < n -> j < n -> mmul n (msub midn (B 0)) (nth k (fst (est N X p)) zmat) i j = B (k + 1) i j.
Proof.
  intros N n p B e X est VM (L & OLS & HR). split.
  - apply (linear_model_ext _ _ _ _ (resid n p X (fun k => nth k (fst (est N X p)) zmat))); [intros i r Hi Hr; unfold resid; symmetry; apply HR; assumption|].
    apply (resid_model N n p B e X VM _ OLS).
  - intros k i j Hk Hi Hj. apply (lag_exact N n p B e X VM (fun k => nth k (fst (est N X p)) zmat) OLS i k j Hi Hk Hj).
Qed.
Print Assumptions C140_residuals_follow_the_instantaneous_model.

(** A concrete series: x0_t = e0_t, x1_t = x0_t + x0_(t-1) + e1_t, ten rows. *)
Definition vx_X : series := ex_series [[2; 0]; [-1; 0]; [2; 3]; [2; 3]; [-1; 3]; [-1; -3]; [-1; -3]; [-1; 0]; [-1; -3]; [2; 0]]%Z.
Definition vx_e (i : nat) : sample := fun r => qz (nth i (nth r [[-1; -1]; [2; 2]; [2; -1]; [-1; 2]; [-1; -1]; [-1; -1]; [-1; 2]; [-1; -1]; [2; -1]]%Z []) 0%Z).
Definition vx_B (k : nat) : mat Qc := ex_B.
Definition vx_est (N : nat) (X : series) (l : nat) : list (mat Qc) * series := ([ex_B], var_residuals 2 [ex_B] X).
Definition vx_R (i : nat) : sample := fun r => snd (vx_est 10 vx_X 1) r i.
Definition vx_reg (ps : list nat) (i p : nat) : num :=
  if memb i ps then (if p =? i then Some 1%Qc else Some 0%Qc) else Some (cov 9 (vx_R i) (vx_R p) / var 9 (vx_R p))%Qc.
Definition vx_lasso (rows : list (list Qc)) (obj : list Qc) (q : nat) : Qc :=
  if qeqb (hd 0%Qc obj) 0%Qc
  then (if length (hd [] rows) =? 2 then nth q [1; 0]%Qc 0%Qc else nth q [1; 1; 0]%Qc 0%Qc)
  else (if length (hd [] rows) =? 2 then 0%Qc else nth q [1 / qz 2; - (1 / qz 2); 0]%Qc 0%Qc).

Lemma vx_model : var_model 10 2 1 vx_B vx_e vx_X.
Proof.
  constructor.
  - apply (topological_acyclic _ [0; 1]); [repeat constructor; cbn; intuition discriminate|exact ex_topo].
  - intros r i Hi Hr. destruct i as [|[|i]]; [| |lia]; do 9 (destruct r as [|r]; [apply Qc_is_canon; vm_compute; reflexivity|]); lia.
  - intros i Hi. destruct i as [|[|i]]; [| |lia]; apply Qc_is_canon; vm_compute; reflexivity.
  - intros i Hi. destruct i as [|[|i]]; [| |lia]; vm_compute; reflexivity.
  - intros i j Hi Hj D. destruct i as [|[|i]]; [| |lia]; destruct j as [|[|j]]; try lia; apply Qc_is_canon; vm_compute; reflexivity.
  - intros i k j Hi Hk Hj. destruct k as [|k]; [|lia]. destruct i as [|[|i]]; [| |lia]; destruct j as [|[|j]]; try lia; apply Qc_is_canon; vm_compute; reflexivity.
  - intros c c0 H k j Hk Hj. destruct k as [|k]; [|lia].
    pose proof (H 0 ltac:(cbn; lia)) as H0. pose proof (H 1 ltac:(cbn; lia)) as H1. pose proof (H 2 ltac:(cbn; lia)) as H2.
    assert (E : forall r, past_sum 2 1 vx_X c r = (c 0%nat 0%nat * vx_X r 0%nat + c 0%nat 1%nat * vx_X r 1%nat)%Qc).
    { intro r. unfold past_sum, past, sumn. cbn [seq]. rewrite !sumf_cons, !sumf_nil. replace (r + 1 - (0 + 1)) with r by lia. ring. }
    rewrite E in H0, H1, H2.
    change (vx_X 0 0) with (qz 2) in H0. change (vx_X 0 1) with (qz 0) in H0. change (vx_X 1 0) with (qz (-1)) in H1. change (vx_X 1 1) with (qz 0) in H1.
    change (vx_X 2 0) with (qz 2) in H2. change (vx_X 2 1) with (qz 3) in H2.
    assert (Q3 : (qz 3 <> 0)%Qc) by discriminate.
    assert (Z2 : qz 2 = (1 + 1)%Qc) by (apply Qc_is_canon; vm_compute; reflexivity). assert (Z1 : qz (-1) = (- (1))%Qc) by (apply Qc_is_canon; vm_compute; reflexivity).
    assert (Z0 : qz 0 = 0%Qc) by (apply Qc_is_canon; vm_compute; reflexivity). assert (Z3 : qz 3 = (1 + 1 + 1)%Qc) by (apply Qc_is_canon; vm_compute; reflexivity).
    rewrite Z2, Z0 in H0. rewrite Z1, Z0 in H1. rewrite Z2, Z3 in H2. rewrite Z3 in Q3.
    assert (C0 : c 0 0 = 0%Qc).
    { assert (Q : (c 0%nat 0%nat * (1 + 1 + 1) = 0)%Qc) by (transitivity ((c 0%nat 0%nat * (1 + 1) + c 0%nat 1%nat * 0) - (c 0%nat 0%nat * - (1) + c 0%nat 1%nat * 0))%Qc; [ring|rewrite H0, H1; ring]).
      apply Qcmult_integral in Q. destruct Q as [Q|Q]; [exact Q|contradiction]. }
    destruct j as [|[|j]]; [exact C0| |lia].
    assert (Q : (c 0%nat 1%nat * (1 + 1 + 1) = 0)%Qc) by (transitivity ((c 0%nat 0%nat * (1 + 1) + c 0%nat 1%nat * (1 + 1 + 1)) - (c 0%nat 0%nat * (1 + 1) + c 0%nat 1%nat * 0))%Qc; [ring|rewrite H0, H2; ring]).
    apply Qcmult_integral in Q. destruct Q as [Q|Q]; [exact Q|contradiction].
Qed.
Lemma vx_solves : solves_autoregression vx_est 10 2 1 vx_X.
Proof.
  split; [reflexivity|]. split.
  - intros i k j Hi Hk Hj. destruct k as [|k]; [|lia]. destruct i as [|[|i]]; [| |lia]; destruct j as [|[|j]]; try lia; apply Qc_is_canon; vm_compute; reflexivity.
  - intros r i Hr Hi. unfold vx_est. cbn [fst snd]. rewrite var_residuals_spec. reflexivity.
Qed.
Lemma vx_pruning : solves_pruning vx_lasso 10 2 1 vx_X.
Proof.
  intros i anc Hi ND HA. assert (C : anc = [] \/ anc = [1 - i]).
  { destruct anc as [|a [|b anc]]; [left; reflexivity| |].
    - right. destruct (HA a (or_introl eq_refl)). f_equal. lia.
    - exfalso. destruct (HA a (or_introl eq_refl)). destruct (HA b (or_intror (or_introl eq_refl))). apply NoDup_cons_iff in ND. destruct ND as [ND _]. apply ND. left. lia. }
  cbv zeta. intros q Hq. apply in_seq in Hq.
  destruct C as [-> | ->]; (destruct i as [|[|i]]; [| |lia]); cbn [length] in Hq; (destruct q as [|[|[|q]]]; try lia); apply Qc_is_canon; vm_compute; reflexivity.
Qed.
Lemma vx_regression : exact_regression 9 2 vx_R vx_reg.
Proof.
  intros ps i Hi HP ND NE. destruct (in_dec Nat.eq_dec i ps) as [I|I].
  - exists (fun p => if p =? i then 1%Qc else 0%Qc). split.
    + intros q Hq. rewrite (cov_ext 9 _ (fun _ => 0%Qc) _ (vx_R q)); [apply cov_zero| |reflexivity]. intros r Hr.
      rewrite (sumf_split ps i _ ND I). rewrite Nat.eqb_refl. rewrite sumf_zero; [ring|]. intros j Hj. apply remove_nat_In in Hj. destruct Hj as [_ Nj]. destruct (Nat.eqb_spec j i); [contradiction|ring].
    + intros p Hp. unfold vx_reg. apply memb_In in I. rewrite I. destruct (p =? i); reflexivity.
  - assert (M : memb i ps = false) by (apply memb_notIn; exact I).
    exists (fun p => cov 9 (vx_R i) (vx_R p) / var 9 (vx_R p))%Qc. split; [|intros p Hp; unfold vx_reg; rewrite M; reflexivity].
    destruct ps as [|p ps]; [congruence|]. assert (ps = []) as ->.
    { destruct ps as [|q ps]; [reflexivity|]. exfalso. pose proof (HP p (or_introl eq_refl)). pose proof (HP q (or_intror (or_introl eq_refl))).
      apply NoDup_cons_iff in ND. destruct ND as [N1 _]. cbn in I, N1. assert (i <> p) by (intros ->; apply I; auto). assert (i <> q) by (intros ->; apply I; auto). assert (q <> p) by (intros ->; apply N1; auto). lia. }
    intros q [<-|[]]. pose proof (HP p (or_introl eq_refl)) as Hp. cbn in I.
    destruct i as [|[|i]]; [| |lia]; destruct p as [|[|p]]; try lia; apply Qc_is_canon; vm_compute; reflexivity.
Qed.
Lemma vx_detects : detects_dependence (np_residual 9) ex_mi 9 2 ex_B vx_e.
Proof.
  set (y := fun i r => if i =? 0 then vx_e 0 r else (vx_e 0 r + vx_e 1 r)%Qc).
  intros U x j ND HU S Hj.
  assert (EXO : forall U, exogenous_in ex_B U 0) by (intros V k _; reflexivity).
  assert (EX1 : exogenous_in ex_B U 1 <-> ~ In 0 U).
  { split; [intros H I0; specialize (H 0 I0); discriminate|]. intros H k Hk. unfold ex_B. destruct (Nat.eqb_spec k 0) as [->|]; [contradiction|]. reflexivity. }
  assert (SUB : In 0 U -> In 1 U -> forall i r, i < 2 -> r < 9 -> x i r = y i r).
  { intros I0 I1.
    assert (X0 : forall r, r < 9 -> x 0 r = vx_e 0 r).
    { intros r Hr. rewrite (S 0 r I0 Hr). rewrite sumf_zero; [ring|]. intros k _. unfold ex_B. cbn. ring. }
    intros i r Hi Hr. destruct i as [|[|i]]; [apply X0; exact Hr| |lia].
    rewrite (S 1 r I1 Hr). rewrite (sumf_split U 0 _ ND I0). rewrite sumf_zero.
    - unfold ex_B. cbn [Nat.eqb andb]. unfold y. cbn [Nat.eqb]. rewrite (X0 r Hr). ring.
    - intros k Hk. apply remove_nat_In in Hk. destruct Hk as [_ Nk]. unfold ex_B. destruct (Nat.eqb_spec k 0); [contradiction|]. rewrite andb_false_r. ring. }
  assert (MI : forall i j, In 0 U -> In 1 U -> i < 2 -> j < 2 -> ex_mi (x j) (np_residual 9 (x i) (x j)) = ex_mi (y j) (np_residual 9 (y i) (y j))).
  { intros i k I0 I1 Hi Hk. pose proof (SUB I0 I1) as X. apply ex_mi_ext; [intros r Hr; apply X; assumption|]. apply np_residual_ext; intros r Hr; apply X; assumption. }
  assert (V01 : ex_mi (y 0) (np_residual 9 (y 1) (y 0)) = Some 0%Qc) by (unfold ex_mi; cbv zeta; f_equal; apply Qc_is_canon; vm_compute; reflexivity).
  assert (V10 : exists v, ex_mi (y 1) (np_residual 9 (y 0) (y 1)) = Some v /\ (0 < v)%Qc) by (eexists; split; [reflexivity|vm_compute; reflexivity]).
  pose proof (HU j Hj) as Lj. split.
  - intros i Hi Nij. pose proof (HU i Hi) as Li. destruct j as [|[|j]]; [| |lia].
    + destruct i as [|[|i]]; [congruence| |lia]. exists 0%Qc. rewrite (MI 1 0 Hj Hi Li Lj). split; [exact V01|]. split; [apply Qcle_refl|reflexivity].
    + destruct i as [|[|i]]; [|congruence|lia]. destruct V10 as (v & E & P). exists v. rewrite (MI 0 1 Hi Hj Li Lj). split; [exact E|]. split; [apply Qclt_le_weak; exact P|].
      intro X. apply EX1 in X. contradiction.
  - intro NX. destruct j as [|[|j]]; [contradiction (NX (EXO U))| |lia]. destruct (in_dec Nat.eq_dec 0 U) as [I0|I0]; [|contradiction NX; apply EX1; exact I0].
    destruct V10 as (v & E & P). exists 0, v. split; [exact I0|]. split; [discriminate|]. rewrite (MI 0 1 I0 Hj ltac:(lia) Lj). split; assumption.
Qed.
Example C140_example :
  var_model 10 2 1 vx_B vx_e vx_X /\ solves_autoregression vx_est 10 2 1 vx_X /\
  separates (better Kernel) 9 2 (vx_B 0) vx_e (kernel_score 9 ex_mi) /\
  exact_regression 9 2 (fun i r => snd (vx_est 10 vx_X 1) r i) vx_reg /\ solves_pruning vx_lasso 10 2 1 vx_X /\
  (forall prune, match var_fit vx_est (direct_on_rows (fun N => kernel_score N ex_mi) Kernel (fun _ _ => vx_reg) 2) vx_lasso 2 prune (fresh_var 1) 10 vx_X with
   | Ok (_, (K, Bs)) => (K, map (fun B => map (fun p => this (B (fst p) (snd p))) [(0, 0); (0, 1); (1, 0); (1, 1)]) Bs)
   | Err _ => ([], [])
   end = ([0; 1], [[0; 0; 1; 0]; [0; 0; 1; 0]]%Q)).
Proof.
  split; [exact vx_model|]. split; [exact vx_solves|]. split; [apply kernel_separates, vx_detects|]. split; [exact vx_regression|]. split; [exact vx_pruning|].
  intros [|]; vm_compute; reflexivity.
Qed.
