(** * C200, C201: VARLiNGAM's and VARMALiNGAM's estimate_total_effect *)
From Coq Require Import List Arith Lia Bool ZArith QArith Qcanon.
From Verif Require Import Prelude Lib LibMat Spec SpecPop SpecTsEffect ModelVAR ModelTsEffect ProofPop ProofPop2 ProofVAR ProofLong ProofTsEffect OlsGS.
Import ListNotations.
Open Scope nat_scope.

Lemma lagged_zero : forall N X c t, t < N -> lagged N X 0 c t = X t c.
Proof.
  intros N X c t H. unfold lagged. rewrite Nat.mod_0_l by lia. rewrite Nat.sub_0_r. replace (t + N) with (t + 1 * N) by lia. rewrite Nat.mod_add by lia. rewrite Nat.mod_small by exact H. reflexivity.
Qed.
Lemma order_check_ok : forall order from to_ lag, (lag = 0 -> In from order /\ In to_ order) -> exists w, order_check order from to_ lag = Ok w.
Proof.
  intros order from to_ lag H. unfold order_check. destruct (Nat.eqb_spec lag 0) as [Z|Z]; [|eexists; reflexivity]. destruct (H Z) as [H1 H2].
  destruct (index_of from order) as [a|] eqn:E1; [|apply index_of_none in E1; contradiction]. destruct (index_of to_ order) as [b|] eqn:E2; [|apply index_of_none in E2; contradiction]. eexists. reflexivity.
Qed.
(** C200: let e be the part of x_from at time t - lag that its parents in the model (at their times) do not account for.  If e is uncorrelated with those parents, and x_to at
    time t is theta times e plus something uncorrelated with e, then the estimated total effect is theta. *)
Theorem C200_effect : forall N n lr Bs order X from to_ lag theta (u : sample), linear_regression N lr -> from < n -> to_ < n -> (lag = 0 -> In from order /\ In to_ order) ->
  let e : sample := fun t => (lagged N X lag from t - sumn (length Bs) (fun k => sumn n (fun c => nth k Bs zmat from c * lagged N X (lag + k)%nat c t)))%Qc in
  (forall k c, k < length Bs -> c < n -> nth k Bs zmat from c <> 0%Qc -> cov N e (lagged N X (lag + k) c) = 0%Qc) -> var N e <> 0%Qc ->
  (forall t, t < N -> X t to_ = (theta * e t + u t)%Qc) -> cov N u e = 0%Qc ->
  exists w, var_total_effect lr n Bs order N X from to_ lag = Ok (theta, w).
Proof.
  intros N n lr Bs order X from to_ lag theta u LR Hf Ht HO e HE HV HY HU. destruct (order_check_ok order from to_ lag HO) as [w W]. exists w. unfold var_total_effect. rewrite W. cbn [bind]. f_equal. f_equal.
  cbn [map]. rewrite map_map.
  rewrite (Nat.add_comm from). rewrite var_column_lagged by exact Hf.
  apply (first_coefficient N lr (lagged N X lag from) (nonzero_cols n Bs from) (fun c => var_column N n X (c + n * lag)) (fun c => nth (c / n) Bs zmat from (c mod n)) e _ u theta LR); [| |exact HV| |exact HU].
  - intros r Hr. unfold e. f_equal. f_equal. rewrite (nonzero_sum n Bs from (fun c => var_column N n X (c + n * lag) r)). apply sumn_ext. intros k Hk. apply sumn_ext. intros c Hc. f_equal.
    replace (n * k + c + n * lag) with (n * (lag + k) + c) by lia. rewrite var_column_lagged by exact Hc. reflexivity.
  - intros j Hj. apply nonzero_In in Hj. destruct Hj as [Hj NZ]. assert (Hn : n <> 0) by lia. pose proof (Nat.div_mod j n Hn) as DM. pose proof (Nat.mod_upper_bound j n Hn) as MB.
    replace (j + n * lag) with (n * (lag + j / n) + j mod n) by lia. rewrite var_column_lagged by exact MB. apply HE; [apply Nat.div_lt_upper_bound; lia|exact MB|exact NZ].
  - intros r Hr. rewrite <- (Nat.add_0_l to_), <- (Nat.mul_0_r n), var_column_lagged by exact Ht. rewrite lagged_zero by exact Hr. apply HY, Hr.
Qed.
(** C200: a variable that is not in the causal order is a ValueError, for lag 0 only. *)
Theorem C200_unknown : forall N n lr Bs order X from to_, ~ In from order \/ ~ In to_ order -> var_total_effect lr n Bs order N X from to_ 0 = Err ValueError.
Proof.
  intros N n lr Bs order X from to_ H. unfold var_total_effect, order_check. cbn [Nat.eqb]. destruct H as [H|H]; apply index_of_none in H; rewrite H; [reflexivity|]. destruct (index_of from order); reflexivity.
Qed.
Print Assumptions C200_effect.
Print Assumptions C200_unknown.

(** ** VARMA *)
Lemma varma_column_at : forall N n p q X E c r, c < n -> r < N -> varma_column N n p q X N E c r = X r c.
Proof. intros N n p q X E c r Hc Hr. pose proof (varma_column_now N n p q X N E 0 c Hc ltac:(lia) r) as H. rewrite Nat.mul_0_r, Nat.add_0_l in H. rewrite H. apply lagged_zero. exact Hr. Qed.
(** C201: the same for VARMALiNGAM without a lag, where the parents are earlier errors too (the errors are given by the caller, one row per row of the data). *)
Theorem C201_effect_now : forall N n p q lr psis omegas order X E from to_ theta (u : sample), linear_regression N lr -> from < n -> to_ < n -> In from order -> In to_ order ->
  length psis = 1 + p -> length omegas = q ->
  let e : sample := fun t => (X t from - sumn (1 + p) (fun k => sumn n (fun c => nth k psis zmat from c * lagged N X k c t))
                                       - sumn q (fun k => sumn n (fun c => nth k omegas zmat from c * lagged N E (S k) c t)))%Qc in
  (forall k c, k <= p -> c < n -> nth k psis zmat from c <> 0%Qc -> cov N e (lagged N X k c) = 0%Qc) ->
  (forall k c, k < q -> c < n -> nth k omegas zmat from c <> 0%Qc -> cov N e (lagged N E (S k) c) = 0%Qc) -> var N e <> 0%Qc ->
  (forall t, t < N -> X t to_ = (theta * e t + u t)%Qc) -> cov N u e = 0%Qc ->
  exists w, varma_total_effect lr n psis omegas order p q N X N E from to_ 0 = Ok (theta, w).
Proof.
  intros N n p q lr psis omegas order X E from to_ theta u LR Hf Ht If It LP LQ e HE HE2 HV HY HU.
  destruct (order_check_ok order from to_ 0) as [w W]; [intros _; split; assumption|]. exists w. unfold varma_total_effect. rewrite W. cbn [bind].
  unfold join_rows_ok, fits_rows. rewrite Nat.eqb_refl, orb_true_r. cbn [bind Nat.eqb]. f_equal. f_equal. cbn [map]. rewrite map_map. rewrite Nat.add_0_r.
  set (C := varma_column N n p q X N E).
  assert (NP : forall k, k < 1 + p -> nth k (psis ++ omegas) zmat = nth k psis zmat) by (intros k Hk; apply app_nth1; lia).
  assert (NQ : forall k, nth (1 + p + k) (psis ++ omegas) zmat = nth k omegas zmat) by (intro k; rewrite app_nth2 by lia; f_equal; lia).
  apply (first_coefficient N lr (C from) (nonzero_cols n (psis ++ omegas) from) (fun c => C (c + 0)) (fun c => nth (c / n) (psis ++ omegas) zmat from (c mod n)) e _ u theta LR); [| |exact HV| |exact HU].
  - intros r Hr. unfold e. rewrite (nonzero_sum n (psis ++ omegas) from (fun c => C (c + 0) r)). rewrite app_length, LP, LQ, (sumn_add (1 + p) q).
    assert (E0 : C from r = X r from) by (apply varma_column_at; assumption). rewrite E0.
    match goal with |- _ = (_ - (?a + ?b))%Qc =>
      assert (E1 : a = sumn (1 + p) (fun k => sumn n (fun c => nth k psis zmat from c * lagged N X k c r))%Qc);
      [|assert (E2 : b = sumn q (fun k => sumn n (fun c => nth k omegas zmat from c * lagged N E (S k) c r))%Qc); [|rewrite E1, E2; ring]] end.
    { apply sumn_ext. intros k Hk. apply sumn_ext. intros c Hc. rewrite NP by exact Hk. rewrite Nat.add_0_r. unfold C. rewrite varma_column_now by lia. reflexivity. }
    { apply sumn_ext. intros k Hk. apply sumn_ext. intros c Hc. rewrite NQ. rewrite Nat.add_0_r. unfold C. rewrite varma_column_error by lia. reflexivity. }
  - intros j Hj. apply nonzero_In in Hj. destruct Hj as [Hj NZ]. rewrite app_length, LP, LQ in Hj. assert (Hn : n <> 0) by lia. pose proof (Nat.div_mod j n Hn) as DM. pose proof (Nat.mod_upper_bound j n Hn) as MB.
    rewrite Nat.add_0_r. destruct (le_lt_dec (j / n) p) as [L|L].
    + rewrite NP in NZ by lia. rewrite (cov_ext N e e (C j) (lagged N X (j / n) (j mod n))); [apply HE; assumption|intros; reflexivity|]. intros r Hr. unfold C. rewrite DM at 1. apply varma_column_now; assumption.
    + assert (Lq : j / n < 1 + p + q) by (apply Nat.div_lt_upper_bound; lia). replace (j / n) with (1 + p + (j / n - 1 - p)) in NZ by lia. rewrite NQ in NZ.
      rewrite (cov_ext N e e (C j) (lagged N E (S (j / n - 1 - p)) (j mod n))); [apply HE2; [lia|assumption|exact NZ]|intros; reflexivity|]. intros r Hr. unfold C. rewrite DM at 1.
      replace (n * (j / n)) with (n * (1 + p + (j / n - 1 - p))) by (f_equal; lia). apply varma_column_error; [exact MB|lia].
  - intros r Hr. unfold C. rewrite varma_column_at by assumption. apply HY, Hr.
Qed.
(** C201, refuted: every positive lag gives the result of lag 1. *)
Theorem C201_lag_ignored_refuted : forall lr n psis omegas order p q N X rows E from to_ lag, 1 <= lag ->
  varma_total_effect lr n psis omegas order p q N X rows E from to_ lag = varma_total_effect lr n psis omegas order p q N X rows E from to_ 1.
Proof. intros lr n psis omegas order p q N X rows E from to_ lag H. unfold varma_total_effect, order_check. destruct (Nat.eqb_spec lag 0); [lia|]. reflexivity. Qed.
(** C201, refuted: with a lag, the parent x_c(t-p) of x_from(t) is not represented by x_c at its time t-1-p but by the error e_c(t-1), or by zeros when q = 0; the parent e_c(t-q) by zeros. *)
Theorem C201_lagged_parents_refuted : forall lr n psis omegas order p q N X E from to_ lag, 1 <= lag -> from < n -> length psis = 1 + p -> length omegas = q ->
  exists cols, varma_total_effect lr n psis omegas order p q N X N E from to_ lag = Ok (lr cols (varma_column N n p q X N E to_) 0, false) /\
    (forall c, c < n -> 0 < q -> nth p psis zmat from c <> 0%Qc -> exists col, In col cols /\ forall t, t < N -> col t = lagged N E 1 c t) /\
    (forall c, c < n -> q = 0 -> nth p psis zmat from c <> 0%Qc -> exists col, In col cols /\ forall t, t < N -> col t = 0%Qc) /\
    (forall c, c < n -> 0 < q -> nth (q - 1) omegas zmat from c <> 0%Qc -> exists col, In col cols /\ forall t, t < N -> col t = 0%Qc) /\
    length cols = 1 + length (nonzero_cols n (psis ++ omegas) from).
Proof.
  intros lr n psis omegas order p q N X E from to_ lag HL Hf LP LQ. unfold varma_total_effect, order_check. destruct (Nat.eqb_spec lag 0); [lia|]. cbn [bind].
  unfold join_rows_ok, fits_rows. rewrite Nat.eqb_refl, orb_true_r. cbn [bind]. eexists. split; [reflexivity|]. cbn [map]. rewrite map_map.
  assert (IN : forall k c, k < 1 + p + q -> c < n -> nth k (psis ++ omegas) zmat from c <> 0%Qc -> In (varma_column N n p q X N E (n * k + c + n)) (map (fun c => varma_column N n p q X N E (c + n)) (nonzero_cols n (psis ++ omegas) from))).
  { intros k c Hk Hc NZ. apply (in_map (fun c => varma_column N n p q X N E (c + n))). apply nonzero_In. rewrite app_length, LP, LQ. destruct (div_mod_unique n k c Hc) as [-> ->]. split; [nia|exact NZ]. }
  split; [|split; [|split]].
  - intros c Hc Hq NZ. exists (varma_column N n p q X N E (n * p + c + n)). split; [right; apply IN; [lia|exact Hc|rewrite app_nth1 by lia; exact NZ]|].
    intros t _. replace (n * p + c + n) with (n * (1 + p + 0) + c) by lia. apply varma_column_error; assumption.
  - intros c Hc Hq NZ. exists (varma_column N n p q X N E (n * p + c + n)). split; [right; apply IN; [lia|exact Hc|rewrite app_nth1 by lia; exact NZ]|].
    intros t _. apply varma_column_zero. subst q. lia.
  - intros c Hc Hq NZ. exists (varma_column N n p q X N E (n * (p + q) + c + n)). split; [right; apply IN; [lia|exact Hc|]|intros t _; apply varma_column_zero; lia].
    rewrite app_nth2 by lia. replace (p + q - length psis) with (q - 1) by lia. exact NZ.
  - cbn [length]. rewrite map_length. reflexivity.
Qed.
(** C201: the errors must have as many rows as the data (residuals_ does not after a fit with given coefficients), or one. *)
Theorem C201_rows : forall lr n psis omegas order p q N X rows E from to_ lag, 0 < q -> rows <> N -> rows <> 1 -> (lag = 0 -> In from order /\ In to_ order) ->
  varma_total_effect lr n psis omegas order p q N X rows E from to_ lag = Err ValueError.
Proof.
  intros lr n psis omegas order p q N X rows E from to_ lag Hq H1 H2 HO. unfold varma_total_effect. destruct (order_check_ok order from to_ lag HO) as [w ->]. cbn [bind]. unfold join_rows_ok, fits_rows.
  destruct (Nat.eqb_spec q 0); [lia|]. destruct (Nat.eqb_spec rows N); [contradiction|]. destruct (Nat.eqb_spec rows 1); [contradiction|]. reflexivity.
Qed.
Print Assumptions C201_effect_now.
Print Assumptions C201_lag_ignored_refuted.
Print Assumptions C201_lagged_parents_refuted.
Print Assumptions C201_rows.

(** ** Examples and refutations on data *)
Definition ex_lr (N : nat) (cols : list sample) (y : sample) (k : nat) : Qc := gs N (fun k => nth k cols (fun _ => 0%Qc)) (seq 0 (length cols)) y k.
Example C200_example_regression : forall N, 0 < N -> linear_regression N (ex_lr N).
Proof.
  intros N HN cols y q Hq. destruct (In_nth cols q (fun _ => 0%Qc) Hq) as (k & Hk & <-).
  exact (gs_solves N HN (fun k => nth k cols (fun _ => 0%Qc)) (seq 0 (length cols)) y (seq_NoDup _ _) k ltac:(apply in_seq; lia)).
Qed.
Definition ex_rows (l : list (list Z)) : series := fun t c => qz (nth c (nth t l []) 0%Z).
(** z(t), x(t) = z(t-1) + a(t), y(t) = 3 x(t-1) + 5 z(t-2): the effect of x on y one step later is 3. *)
Definition ex_zxy : series := ex_rows [[1; 0; 5]; [-1; 2; -5]; [1; -2; 11]; [-1; 0; -11]]%Z.
Definition ex_Bs : list (mat Qc) :=
  [zmat; fun i j => if (i =? 1) && (j =? 0) then qz 1 else if (i =? 2) && (j =? 1) then qz 3 else 0%Qc; fun i j => if (i =? 2) && (j =? 0) then qz 5 else 0%Qc].
Example C200_example : forall lr, linear_regression 4 lr -> exists w, var_total_effect lr 3 ex_Bs [0; 1; 2] 4 ex_zxy 1 2 1 = Ok (qz 3, w).
Proof.
  intros lr LR. apply (C200_effect 4 3 lr ex_Bs [0; 1; 2] ex_zxy 1 2 1 (qz 3) (fun t => qz 8 * ex_zxy t 0%nat)%Qc LR); try lia.
  - intros k c Hk Hc NZ. destruct k as [|[|[|k]]]; [| | |cbn in Hk; lia]; destruct c as [|[|[|c]]]; try lia; try (exfalso; apply NZ; reflexivity). apply Qc_is_canon. vm_compute. reflexivity.
  - intro Z. apply (f_equal this) in Z. vm_compute in Z. discriminate Z.
  - intros t Ht. destruct t as [|[|[|[|t]]]]; [| | | |lia]; apply Qc_is_canon; vm_compute; reflexivity.
  - apply Qc_is_canon. vm_compute. reflexivity.
Qed.
(** x(t) = 2 x(t-1) without noise: 1, 2, 4, 8 *)
Definition ex_double : series := ex_rows [[1]; [2]; [4]; [8]]%Z.
Definition ex_ar : list (mat Qc) := [zmat; fun _ _ => qz 2].
(** C200, refuted: the rows of the end of the series are taken as the past of its beginning.  The series doubles at every step, the total effect of the model for lag 1 is 2, and every
    least-squares regression reports -5/14. *)
Theorem C200_boundary_refuted : exists N n Bs X, (forall t i, 1 <= t -> t < N -> i < n -> X t i = sumn n (fun c => nth 1 Bs zmat i c * X (t - 1)%nat c)%Qc) /\
  var_effect2 n Bs 0 0 1 = Ok (Some (qz 2)) /\ forall lr, linear_regression N lr -> exists w, var_total_effect lr n Bs [0] N X 0 0 1 = Ok (- qf 5 14, w)%Qc.
Proof.
  exists 4, 1, ex_ar, ex_double. split; [|split].
  - intros t i H1 H2 H3. destruct i; [|lia]. destruct t as [|[|[|[|t]]]]; try lia; apply Qc_is_canon; vm_compute; reflexivity.
  - vm_compute. reflexivity.
  - intros lr LR. exists false. unfold var_total_effect. cbn [order_check Nat.eqb bind]. f_equal. f_equal.
    change (nonzero_cols 1 ex_ar 0) with [1]. cbn [map].
    set (e := fun t => (lagged 4 ex_double 1 0%nat t + qf 5 23 * lagged 4 ex_double 2 0%nat t)%Qc).
    apply (first_coefficient 4 lr (var_column 4 1 ex_double (0 + 1 * 1)) [1] (fun c => var_column 4 1 ex_double (c + 1 * 1)) (fun _ => - qf 5 23)%Qc e _ (fun t => ex_double t 0%nat + qf 5 14 * e t)%Qc _ LR).
    + intros r Hr. destruct r as [|[|[|[|r]]]]; [| | | |lia]; apply Qc_is_canon; vm_compute; reflexivity.
    + intros j [<-|[]]. apply Qc_is_canon. vm_compute. reflexivity.
    + intro Z. apply (f_equal this) in Z. vm_compute in Z. discriminate Z.
    + intros r Hr. destruct r as [|[|[|[|r]]]]; [| | | |lia]; apply Qc_is_canon; vm_compute; reflexivity.
    + apply Qc_is_canon. vm_compute. reflexivity.
Qed.
(** C201, refuted: for the same model and data VARMALiNGAM reports another effect than VARLiNGAM. *)
Theorem C201_differs_refuted : exists N n Bs X, forall lr E, linear_regression N lr ->
  var_total_effect lr n Bs [0] N X 0 0 1 = Ok (- qf 5 14, false)%Qc /\ varma_total_effect lr n Bs [] [0] 1 0 N X N E 0 0 1 = Ok (- qf 5 23, false)%Qc.
Proof.
  exists 4, 1, ex_ar, ex_double. intros lr E LR. split.
  - unfold var_total_effect. cbn [order_check Nat.eqb bind]. f_equal. f_equal.
    change (nonzero_cols 1 ex_ar 0) with [1]. cbn [map].
    set (e := fun t => (lagged 4 ex_double 1 0%nat t + qf 5 23 * lagged 4 ex_double 2 0%nat t)%Qc).
    apply (first_coefficient 4 lr (var_column 4 1 ex_double (0 + 1 * 1)) [1] (fun c => var_column 4 1 ex_double (c + 1 * 1)) (fun _ => - qf 5 23)%Qc e _ (fun t => ex_double t 0%nat + qf 5 14 * e t)%Qc _ LR).
    + intros r Hr. destruct r as [|[|[|[|r]]]]; [| | | |lia]; apply Qc_is_canon; vm_compute; reflexivity.
    + intros j [<-|[]]. apply Qc_is_canon. vm_compute. reflexivity.
    + intro Z. apply (f_equal this) in Z. vm_compute in Z. discriminate Z.
    + intros r Hr. destruct r as [|[|[|[|r]]]]; [| | | |lia]; apply Qc_is_canon; vm_compute; reflexivity.
    + apply Qc_is_canon. vm_compute. reflexivity.
  - unfold varma_total_effect. cbn [order_check Nat.eqb bind join_rows_ok orb]. f_equal. f_equal.
    change (nonzero_cols 1 (ex_ar ++ []) 0) with [1]. cbn [map].
    apply (first_coefficient 4 lr (varma_column 4 1 1 0 ex_double 4 E (0 + 1)) [1] (fun c => varma_column 4 1 1 0 ex_double 4 E (c + 1)) (fun _ => 0%Qc) (lagged 4 ex_double 1 0) _ (fun t => ex_double t 0%nat + qf 5 23 * lagged 4 ex_double 1 0 t)%Qc _ LR).
    + intros r Hr. destruct r as [|[|[|[|r]]]]; [| | | |lia]; apply Qc_is_canon; vm_compute; reflexivity.
    + intros j [<-|[]]. apply Qc_is_canon. vm_compute. reflexivity.
    + intro Z. apply (f_equal this) in Z. vm_compute in Z. discriminate Z.
    + intros r Hr. destruct r as [|[|[|[|r]]]]; [| | | |lia]; apply Qc_is_canon; vm_compute; reflexivity.
    + apply Qc_is_canon. vm_compute. reflexivity.
Qed.
Print Assumptions C200_boundary_refuted.
Print Assumptions C201_differs_refuted.
(** x(t) = 2 e_y(t-1) + a(t), y(t) = 3 x(t) + e_y(t) *)
Definition ex_xy : series := ex_rows [[-1; -2]; [3; 8]; [-3; -8]; [1; 2]]%Z.
Definition ex_err : series := ex_rows [[1; 1]; [1; -1]; [-1; 1]; [-1; -1]]%Z.
Example C201_example : forall lr, linear_regression 4 lr ->
  exists w, varma_total_effect lr 2 [fun i j => if (i =? 1) && (j =? 0) then qz 3 else 0%Qc] [fun i j => if (i =? 0) && (j =? 1) then qz 2 else 0%Qc] [0; 1] 0 1 4 ex_xy 4 ex_err 0 1 0 = Ok (qz 3, w).
Proof.
  intros lr LR.
  apply (C201_effect_now 4 2 0 1 lr [fun i j => if (i =? 1) && (j =? 0) then qz 3 else 0%Qc] [fun i j => if (i =? 0) && (j =? 1) then qz 2 else 0%Qc] [0; 1] ex_xy ex_err 0 1 (qz 3) (fun t => qz 6 * lagged 4 ex_err 1 1 t + ex_err t 1%nat)%Qc LR); try lia; try (cbn; tauto); try reflexivity.
  - intros k c Hk Hc NZ. destruct k; [|lia]. destruct c as [|[|c]]; [| |lia]; exfalso; apply NZ; reflexivity.
  - intros k c Hk Hc NZ. destruct k; [|lia]. destruct c as [|[|c]]; [exfalso; apply NZ; reflexivity| |lia]. apply Qc_is_canon. vm_compute. reflexivity.
  - intro Z. apply (f_equal this) in Z. vm_compute in Z. discriminate Z.
  - intros t Ht. destruct t as [|[|[|[|t]]]]; [| | | |lia]; apply Qc_is_canon; vm_compute; reflexivity.
  - apply Qc_is_canon. vm_compute. reflexivity.
Qed.
